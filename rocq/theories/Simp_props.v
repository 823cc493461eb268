(** * Lemmas backing the theorems on simplicial complexes *)
From Verif Require Import Base ListX SortX Lin PH_model Simp_model Spec_Simp Simp_lists Simp_vr Simp_flag Simp_diff.
From Coq Require Import Sorted Permutation.
Local Open Scope Z_scope.

Lemma stable_argsort_sorts : sorts stable_argsort.
Proof.
  intros l. unfold stable_argsort. split; [symmetry; apply isort_perm|].
  intros i j Hij. set (leb := fun i j => nth i l 0 <=? nth j l 0).
  assert (H : StronglySorted (fun i j => nth i l 0 <= nth j l 0) (isort leb (seq 0 (length l)))).
  { apply (isort_sorted leb (fun _ _ => True)).
    - intros x y _ H. unfold leb in H. apply Z.leb_le in H. auto.
    - intros x y _ H. unfold leb in H. apply Z.leb_gt in H. lia.
    - intros; lia.
    - generalize (seq 0 (length l)). intros q. induction q; constructor; auto. apply Forall_forall. auto. }
  apply (sorted_nth _ _ 0%nat H). rewrite isort_length, seq_length. auto.
Qed.

Lemma level_S n (Ls : list (list (simplex * Z))) d :
  level n (map (map fst) Ls) (S d) = map fst (nth d Ls []).
Proof. exact (map_nth (map fst) Ls [] d). Qed.

Lemma rad_S n (Ls : list (list (simplex * Z))) d :
  nth (S d) (repeat 0 n :: map (map snd) Ls) [] = map snd (nth d Ls []).
Proof. exact (map_nth (map snd) Ls [] d). Qed.

Lemma diameter_exists Dist n adj d s : clique n adj (S d) s -> exists x, diameter Dist s x.
Proof.
  intros (Hl & Hi & _).
  assert (Hne' : exists a b, In a s /\ In b s /\ (a < b)%nat).
  { destruct s as [|a [|b s]]; simpl in Hl; try lia.
    inversion Hi as [|? ? ? Ha]; subst. inversion Ha; subst. exists a, b. simpl. auto. }
  clear - Hne'. destruct Hne' as (a & b & Ha & Hb & Hab).
  set (P := filter (fun p => (Nat.ltb (fst p) (snd p))) (list_prod s s)).
  assert (HP : forall u w, In (u, w) P <-> In u s /\ In w s /\ (u < w)%nat).
  { intros u w. unfold P. rewrite filter_In, in_prod_iff. simpl. rewrite Nat.ltb_lt. tauto. }
  assert (Hm : forall Q : list (nat * nat), Q <> [] -> exists p, In p Q /\
     forall q, In q Q -> dist Dist (fst q) (snd q) <= dist Dist (fst p) (snd p)).
  { induction Q as [|q Q IH]; [congruence|]. intros _. destruct Q as [|q' Q].
    - exists q. split; simpl; auto. intros ? [<-|[]]. lia.
    - destruct IH as (p & Hp & Hmax); [congruence|].
      destruct (Z_le_gt_dec (dist Dist (fst q) (snd q)) (dist Dist (fst p) (snd p))) as [Hle|Hgt].
      + exists p. split; [right; auto|]. intros t [<-|Ht]; auto.
      + exists q. split; [left; auto|]. intros t [<-|Ht]; [lia|]. specialize (Hmax t Ht). lia. }
  destruct (Hm P) as ([u w] & Hp & Hmax).
  { intros E. assert (In (a, b) P) by (apply HP; auto). rewrite E in H. destruct H. }
  apply HP in Hp. exists (dist Dist u w). split; [exists u, w; tauto|].
  intros u' w' H1 H2 H3. apply (Hmax (u', w')). apply HP. auto.
Qed.

Section Rips.
Variable argsort : list Z -> list nat.
Hypothesis Hsort : sorts argsort.
Variable Dist : list (list Z).
Hypothesis Hsq : square Dist.
Variables max_r max_dim : Z.
Let n := length Dist.

Lemma level_in Ls d : level_ok Dist max_r (S d) (nth d Ls []) ->
  forall s, In s (map fst (nth d Ls [])) <-> clique n (near Dist max_r) (S d) s.
Proof.
  intros H s. rewrite in_fst. split.
  - intros (x & Hx). apply (lo_in _ _ _ _ H) in Hx. tauto.
  - intros Hc. destruct (diameter_exists Dist _ _ _ _ Hc) as [x Hx]. exists x. apply (lo_in _ _ _ _ H). auto.
Qed.

Lemma C13_aux : exists Cs R,
  vietoris_rips argsort Dist max_r max_dim = Ok (n, Cs, R) /\
  length Cs = Z.to_nat (Z.max 1 max_dim) /\
  forall d, (1 <= d <= Z.to_nat (Z.max 1 max_dim))%nat ->
    NoDup (level n Cs d) /\ forall s, In s (level n Cs d) <-> clique n (near Dist max_r) d s.
Proof.
  destruct (vietoris_rips_ok Dist Hsq max_r argsort Hsort max_dim) as (Ls & E & Hl & H).
  exists (map (map fst) Ls), (repeat 0 n :: map (map snd) Ls). split; [exact E|]. split; [rewrite map_length; auto|].
  intros [|d] Hd; [lia|]. rewrite level_S. specialize (H d ltac:(lia)). split.
  - apply (lo_nodup _ _ _ _ H).
  - apply level_in. auto.
Qed.

Section Output.
Variables (Cs : list (list simplex)) (R : list (list Z)) (n' : nat).
Hypothesis HVR : vietoris_rips argsort Dist max_r max_dim = Ok (n', Cs, R).

Lemma vr_inv : exists Ls, n' = n /\ Cs = map (map fst) Ls /\ R = repeat 0 n :: map (map snd) Ls /\
  length Ls = Z.to_nat (Z.max 1 max_dim) /\
  forall d, (d < length Ls)%nat -> level_ok Dist max_r (S d) (nth d Ls []).
Proof.
  destruct (vietoris_rips_ok Dist Hsq max_r argsort Hsort max_dim) as (Ls & E & Hl & H).
  rewrite HVR in E. injection E as -> -> ->. exists Ls. auto 10.
Qed.

Lemma C14_aux : length R = S (length Cs) /\ nth 0 R [] = repeat 0 n /\
  forall d, (1 <= d <= length Cs)%nat ->
    length (nth d R []) = length (level n Cs d) /\
    (forall i, (i < length (level n Cs d))%nat ->
       diameter Dist (nth i (level n Cs d) []) (nth i (nth d R []) 0) /\ nth i (nth d R []) 0 < max_r) /\
    (forall i j, (i <= j < length (level n Cs d))%nat -> nth i (nth d R []) 0 <= nth j (nth d R []) 0).
Proof.
  destruct vr_inv as (Ls & En & -> & -> & Hl & H). split; [simpl; rewrite !map_length; auto|]. split; auto.
  intros [|d] Hd; [lia|]. rewrite map_length in Hd. specialize (H d ltac:(lia)).
  rewrite level_S, rad_S, !map_length. split; auto. split.
  - intros i Hi. rewrite (nth_map fst _ _ ([], 0)), (nth_map snd _ _ ([], 0)) by auto.
    pose proof (nth_In _ ([], 0) Hi) as Hin. destruct (nth i (nth d Ls []) ([], 0)) as [s x].
    apply (lo_in _ _ _ _ H) in Hin. destruct Hin as [Hc Hd']. split; auto.
    apply (diameter_lt Dist _ max_r (S d) s x Hc Hd').
  - intros i j Hij. destruct (Nat.eq_dec i j) as [->|Hne]; [lia|].
    apply (sorted_nth Z.le _ 0 (lo_sorted _ _ _ _ H)). rewrite map_length. lia.
Qed.

Lemma level_clique d s : In s (level n Cs (S d)) -> clique n (near Dist max_r) (S d) s /\ (d < length Cs)%nat.
Proof.
  destruct vr_inv as (Ls & En & -> & -> & Hl & H). rewrite level_S, map_length. intros Hs.
  destruct (lt_dec d (length Ls)) as [Hd|Hd].
  - split; auto. apply (level_in Ls d (H d Hd)). auto.
  - rewrite nth_overflow in Hs by lia. destruct Hs.
Qed.

Lemma clique_level d s : clique n (near Dist max_r) (S d) s -> (d < length Cs)%nat -> In s (level n Cs (S d)).
Proof.
  destruct vr_inv as (Ls & En & -> & -> & Hl & H). rewrite level_S, map_length. intros Hs Hd.
  apply (level_in Ls d (H d Hd)). auto.
Qed.

Lemma in_level_0 s : In s (level n Cs 0) <-> exists v, (v < n)%nat /\ s = [v].
Proof.
  simpl. rewrite in_map_iff. split.
  - intros (v & <- & Hv). apply in_seq in Hv. exists v. split; auto. lia.
  - intros (v & Hv & ->). exists v. split; auto. apply in_seq. lia.
Qed.

Lemma level_NoDup d : NoDup (level n Cs d).
Proof.
  destruct d as [|d].
  - apply NoDup_map_on; [apply seq_NoDup|]. congruence.
  - destruct vr_inv as (Ls & En & -> & -> & Hl & H). rewrite level_S.
    destruct (lt_dec d (length Ls)) as [Hd|Hd]; [apply (lo_nodup _ _ _ _ (H d Hd))|].
    rewrite nth_overflow by lia. constructor.
Qed.

Lemma vr_simplicial : simplicial n Cs.
Proof.
  split; [|split].
  - intros [|d] s Hs.
    + apply in_level_0 in Hs. destruct Hs as (v & Hv & ->). split; auto. split; [repeat constructor|].
      intros w [<-|[]]. auto.
    + apply level_clique in Hs. destruct Hs as [(H1 & H2 & H3 & _) _]. auto.
  - apply level_NoDup.
  - intros d s k Hs Hk. apply level_clique in Hs. destruct Hs as [(H1 & H2 & H3 & H4) Hd].
    assert (Hin : forall x, In x (facet k s) -> In x s).
    { intros x Hx. apply facet_In in Hx; [tauto|auto|lia]. }
    assert (Hlen : length (facet k s) = S d) by (rewrite facet_length; lia).
    destruct d as [|d].
    + apply in_level_0. destruct (facet k s) as [|v [|w t]] eqn:E; simpl in Hlen; try lia.
      exists v. split; auto. apply H3, Hin. simpl; auto.
    + apply clique_level; [|lia]. repeat split; auto. apply facet_increasing; auto. lia.
Qed.

Lemma C15_aux : simplicial n Cs /\
  forall d i k, (1 <= d)%nat -> (i < length (level n Cs (S d)))%nat -> (k <= S d)%nat ->
    exists j, (j < length (level n Cs d))%nat /\
      nth j (level n Cs d) [] = facet k (nth i (level n Cs (S d)) []) /\
      nth j (nth d R []) 0 <= nth i (nth (S d) R []) 0.
Proof.
  split; [apply vr_simplicial|]. intros d i k Hd Hi Hk.
  pose proof (nth_In _ [] Hi) as Hs. set (s := nth i (level n Cs (S d)) []) in *.
  destruct vr_simplicial as (Hwf & Hnd & Hcl). pose proof (Hcl d s k Hs Hk) as Hf.
  destruct (In_nth _ _ [] Hf) as (j & Hj & Ej). exists j. split; auto. split; auto.
  destruct (level_clique d s Hs) as [Hc Hdl].
  destruct C14_aux as (_ & _ & H14).
  destruct (H14 d) as (_ & H1 & _); [lia|]. destruct (H14 (S d)) as (_ & H2 & _); [lia|].
  destruct (H1 j Hj) as [[(u & v & Hu & Hv & Huv & <-) _] _]. destruct (H2 i Hi) as [[_ H3] _].
  assert (Hin : forall x, In x (facet k s) -> In x s).
  { intros x Hx. destruct Hc as (Hl & Hi' & _). apply facet_In in Hx; [tauto|auto|lia]. }
  rewrite Ej in *. apply H3; auto.
Qed.
End Output.
End Rips.

Lemma C16_aux : forall G n max_dim, NoDup G -> (forall u v, In (u, v) G -> (u < v < n)%nat) -> 0 <= max_dim ->
  exists Cs, flag_complex G n max_dim = Ok (n, Cs) /\ length Cs = Z.to_nat max_dim /\
  forall d, (1 <= d <= Z.to_nat max_dim)%nat ->
    NoDup (level n Cs d) /\ forall s, In s (level n Cs d) <-> clique n (fun u v => In (u, v) G) d s.
Proof.
  intros G n max_dim HG Hn Hm. destruct (flag_complex_ok G n HG Hn max_dim Hm) as (Ls & E & Hl & H).
  exists Ls. split; auto. split; auto. intros [|d] Hd; [lia|]. apply (H d). lia.
Qed.

Lemma C16_err_aux : forall G n max_dim, max_dim < 0 -> flag_complex G n max_dim = Err ValueError.
Proof. intros G n m H. unfold flag_complex. apply Z.ltb_lt in H. rewrite H. auto. Qed.

Lemma C17_aux : forall n0 Cs p, 1 < p -> Cs <> [] -> well_formed n0 Cs ->
  exists Ds, complex_differentials n0 Cs p = Ok (n0, Ds) /\ length Ds = length Cs /\
  forall d, (d < length Cs)%nat ->
    let L := level n0 Cs d in let L' := level n0 Cs (S d) in let D := nth d Ds (Mat 0 []) in
    wf_mat D /\ nrows D = length L /\ ncols D = length L' /\
    forall i j, (i < length L)%nat -> (j < length L')%nat ->
      match d with
      | O => forall u v, nth j L' [] = [u; v] -> get D i j = if Nat.eqb i u then 1 else if Nat.eqb i v then p - 1 else 0
      | S _ =>
        (forall k, (k <= S d)%nat -> nth i L [] = facet k (nth j L' []) -> get D i j = ((-1) ^ Z.of_nat k) mod p) /\
        ((forall k, (k <= S d)%nat -> nth i L [] <> facet k (nth j L' [])) -> get D i j = 0)
      end.
Proof.
  intros n0 Cs p Hp Hne Hwf. destruct (differentials_ok n0 Cs p Hp Hne Hwf) as (Ds & E & Hl & H).
  exists Ds. split; auto. split; auto. intros d Hd. destruct (H d Hd) as (H1 & H2 & H3 & H4). cbv zeta in *.
  repeat (split; auto). intros i j Hi Hj. specialize (H4 i j Hi Hj).
  destruct (Hwf (S d) (nth j (level n0 Cs (S d)) [])) as (Ls & Is & Vs); [apply nth_In; auto|].
  destruct d as [|d].
  - intros u v Ej. rewrite H4, Ej. cbn [level dsign]. cbn [level] in Hi. rewrite map_length, seq_length in Hi.
    rewrite nth_map_seq by auto. rewrite Ej in *.
    assert (Huv : (u < v)%nat) by (inversion Is as [|? ? ? Hf]; subst; inversion Hf; auto).
    destruct (Nat.eqb_spec i u) as [->|Hu]; [|destruct (Nat.eqb_spec i v) as [->|Hv]].
    + change [u] with (facet 1 [u; v]). rewrite bdc_facet; auto. apply (Z.mod_small 1). lia.
    + change [v] with (facet 0 [u; v]). rewrite bdc_facet; auto; [|simpl; lia].
      change (-1 * sg 0) with (-1). replace (-1) with (p - 1 + (-1) * p) by ring.
      rewrite Z_mod_plus_full. apply Z.mod_small. lia.
    + rewrite bdc_other; [apply Zmod_0_l|]. intros [|[|k]] Hk; simpl in Hk; try lia; unfold facet; simpl; congruence.
  - rewrite H4. cbn [dsign]. rewrite Z.mul_1_l. split.
    + intros k Hk ->. rewrite bdc_facet by (auto; lia). reflexivity.
    + intros Hno. rewrite bdc_other; [apply Zmod_0_l|]. intros k Hk. apply Hno. lia.
Qed.

Lemma C18_aux : forall n0 Cs p n0' Ds, 1 < p -> simplicial n0 Cs -> complex_differentials n0 Cs p = Ok (n0', Ds) ->
  forall d i j, (S d < length Ds)%nat ->
    (i < nrows (nth d Ds (Mat 0 [])))%nat -> (j < ncols (nth (S d) Ds (Mat 0 [])))%nat ->
    ncols (nth d Ds (Mat 0 [])) = nrows (nth (S d) Ds (Mat 0 [])) /\
    Zsum (ncols (nth d Ds (Mat 0 []))) (fun k => get (nth d Ds (Mat 0 [])) i k * get (nth (S d) Ds (Mat 0 [])) k j) mod p = 0.
Proof.
  intros n0 Cs p n0' Ds Hp Hs HD d i j Hd Hi Hj.
  destruct Cs as [|C1 Cs']; [discriminate|]. set (Cs := C1 :: Cs') in *.
  destruct Hs as (Hwf & Hs').
  destruct (differentials_ok n0 Cs p Hp) as (Ds' & E & Hl & H); [unfold Cs; congruence|auto|].
  rewrite HD in E. injection E as -> <-.
  destruct (H d) as (_ & A1 & A2 & _); [lia|]. destruct (H (S d)) as (_ & B1 & B2 & _); [lia|].
  rewrite A1 in Hi. rewrite B2 in Hj. rewrite A2, B1. split; auto.
  apply (differentials_square n0 Cs p Ds); auto; [split; auto|lia].
Qed.
