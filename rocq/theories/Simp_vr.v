(** * The Vietoris-Rips construction lists the cliques with their diameters *)
From Verif Require Import Base ListX SortX PH_model Simp_model Spec_Simp Simp_lists.
From Coq Require Import Sorted Permutation.
Local Open Scope Z_scope.

(** ** Cliques *)
Lemma clique_cons n adj d v s : clique n adj (S d) (v :: s) <->
  clique n adj d s /\ (v < n)%nat /\ forall u, In u s -> (v < u)%nat /\ adj v u.
Proof.
  unfold clique, increasing. simpl length. split.
  - intros (Hl & Hi & Hn & Ha). inversion Hi as [|? ? Hs Hx]; subst. rewrite Forall_forall in Hx.
    repeat split; auto; try lia.
    + intros u Hu. apply Hn. simpl. auto.
    + intros u w Hu Hw. apply Ha; simpl; auto.
    + apply Hn. simpl. auto.
    + intros. apply Ha; simpl; auto.
  - intros ((Hl & Hi & Hn & Ha) & Hv & Hu). repeat split; try lia.
    + constructor; auto. apply Forall_forall. intros x Hx. apply Hu; auto.
    + simpl. intros u [<-|H]; auto.
    + simpl. intros u w [<-|H] [<-|H'] Hlt; try lia.
      * apply Hu; auto.
      * destruct (Hu u H). lia.
      * apply Ha; auto.
Qed.

Lemma clique_edge n adj s : clique n adj 1 s <-> exists u v, s = [u; v] /\ (u < v < n)%nat /\ adj u v.
Proof.
  split.
  - intros H. destruct s as [|u [|v [|w s]]]; try (destruct H as (Hl & _); simpl in Hl; lia).
    apply clique_cons in H. destruct H as ((_ & _ & Hn & _) & Hu & H).
    destruct (H v) as [H1 H2]; [simpl; auto|]. exists u, v. repeat split; auto. apply Hn. simpl; auto.
  - intros (u & v & -> & Huv & Ha). apply clique_cons. repeat split; auto; try lia.
    + repeat constructor.
    + simpl. intros x [<-|[]]. lia.
    + simpl. intros x y [<-|[]] [<-|[]]. lia.
    + simpl in H. destruct H as [<-|[]]. lia.
    + simpl in H. destruct H as [<-|[]]. auto.
Qed.

(** ** Diameters *)
Lemma diameter_unique Dist s x y : diameter Dist s x -> diameter Dist s y -> x = y.
Proof.
  intros [(u & v & Hu & Hv & Hl & E) H] [(u' & v' & Hu' & Hv' & Hl' & E') H'].
  specialize (H _ _ Hu' Hv' Hl'). specialize (H' _ _ Hu Hv Hl). lia.
Qed.

Lemma cone_rad_max Dist s rad n : (forall v, In v s -> dist_at Dist v n = Ok (dist Dist n v)) ->
  exists x, cone_rad Dist s rad n = Ok x /\ rad <= x /\ (forall v, In v s -> dist Dist n v <= x) /\
    (x = rad \/ exists v, In v s /\ dist Dist n v = x).
Proof.
  unfold cone_rad. revert rad. induction s as [|v s IH]; intros rad H; simpl.
  - exists rad. repeat split; auto; try lia; try (intros ? []).
  - rewrite H by (simpl; auto). simpl.
    destruct (IH (if rad <? dist Dist n v then dist Dist n v else rad)) as (x & E & H1 & H2 & H3).
    { intros w Hw. apply H. simpl; auto. }
    exists x. rewrite E. split; auto. destruct (Z.ltb_spec rad (dist Dist n v)).
    + split; [lia|]. split.
      * intros w [<-|Hw]; auto.
      * right. destruct H3 as [->|(w & Hw & E')]; eauto.
    + split; [lia|]. split.
      * intros w [<-|Hw]; auto. lia.
      * destruct H3 as [->|(w & Hw & E')]; eauto.
Qed.

Lemma diameter_cons Dist v s r x :
  (forall u, In u s -> (v < u)%nat) -> diameter Dist s r ->
  r <= x -> (forall u, In u s -> dist Dist v u <= x) ->
  (x = r \/ exists u, In u s /\ dist Dist v u = x) -> diameter Dist (v :: s) x.
Proof.
  intros Hv [(u & w & Hu & Hw & Hl & E) H] Hr Hx Ho. split.
  - destruct Ho as [->|(u' & Hu' & E')].
    + exists u, w. simpl. auto 10.
    + exists v, u'. simpl. auto 10.
  - simpl. intros a b [<-|Ha] [<-|Hb] Hab; try lia.
    + specialize (Hv _ Ha). lia.
    + specialize (H _ _ Ha Hb Hab). lia.
Qed.

Lemma diameter_lt Dist n max_r d s x : clique n (near Dist max_r) d s -> diameter Dist s x -> x < max_r.
Proof. intros (_ & _ & _ & H) [(u & v & Hu & Hv & Hl & <-) _]. apply H; auto. Qed.

Section VR.
Variable Dist : list (list Z).
Hypothesis Hsq : square Dist.
Variable max_r : Z.
Let n := length Dist.
Let adj := near Dist max_r.

Lemma dist_at_ok i j : (i < n)%nat -> (j < n)%nat -> dist_at Dist i j = Ok (dist Dist j i).
Proof.
  intros Hi Hj. unfold dist_at. rewrite (nth_err_nth Dist i []) by auto. simpl.
  rewrite (nth_err_nth _ j 0); [reflexivity|]. rewrite Hsq by auto. auto.
Qed.

Definition edges : list ((nat * nat) * Z) :=
  flat_map (fun i => flat_map (fun j =>
    if dist Dist j i <? max_r then [((j, i), dist Dist j i)] else []) (seq 0 i)) (seq 0 n).

Lemma vr_edges_pure : vr_edges Dist max_r = Ok edges.
Proof.
  apply flat_mapM_pure. intros i Hi. apply in_seq in Hi.
  apply flat_mapM_pure. intros j Hj. apply in_seq in Hj.
  rewrite dist_at_ok by (fold n in Hi; lia). reflexivity.
Qed.

Lemma in_edges u v x : In ((u, v), x) edges <-> (u < v < n)%nat /\ adj u v /\ x = dist Dist u v.
Proof.
  unfold edges. rewrite in_flat_map. split.
  - intros (i & Hi & H). apply in_flat_map in H. destruct H as (j & Hj & H).
    apply in_seq in Hi, Hj. destruct (Z.ltb_spec (dist Dist j i) max_r) as [Hlt|]; [|destruct H].
    destruct H as [E|[]]. injection E as <- <- <-. repeat split; auto; lia.
  - intros (H & Ha & ->). exists v. split; [apply in_seq; lia|]. apply in_flat_map.
    exists u. split; [apply in_seq; lia|]. apply Z.ltb_lt in Ha. rewrite Ha. simpl; auto.
Qed.

Lemma edges_NoDup : NoDup (map fst edges).
Proof.
  unfold edges.
  assert (H : forall l, NoDup l -> NoDup (map fst (flat_map (fun i => flat_map (fun j =>
    if dist Dist j i <? max_r then [((j, i), dist Dist j i)] else []) (seq 0 i)) l))).
  { intros l Hl. replace (map fst _) with (flat_map (fun i => flat_map (fun j =>
      if dist Dist j i <? max_r then [(j, i)] else []) (seq 0 i)) l).
    - apply NoDup_flat_map; auto.
      + intros i _. apply NoDup_flat_map; [apply seq_NoDup| |].
        * intros j _. destruct (_ <? _); repeat constructor; auto.
        * intros j j' z _ _. destruct (_ <? _), (_ <? _); simpl; try tauto. intros [<-|[]] [E|[]]. congruence.
      + intros i i' z _ _ H H'. apply in_flat_map in H, H'. destruct H as (j & _ & H), H' as (j' & _ & H').
        destruct (_ <? _), (_ <? _); simpl in *; try tauto. destruct H as [<-|[]], H' as [E|[]]. congruence.
    - clear Hl. induction l as [|i l IH]; simpl; auto. rewrite map_app, <- IH. f_equal.
      generalize (seq 0 i). intros js. induction js as [|j js IHj]; simpl; auto.
      rewrite map_app, <- IHj. destruct (_ <? _); reflexivity. }
  apply H; auto. apply seq_NoDup.
Qed.

(** What a level of the complex contains. *)
Record level_ok (d : nat) (L : list (simplex * Z)) : Prop := {
  lo_nodup : NoDup (map fst L);
  lo_in : forall s x, In (s, x) L <-> clique n adj d s /\ diameter Dist s x;
  lo_sorted : StronglySorted Z.le (map snd L)
}.

Variable argsort : list Z -> list nat.
Hypothesis Hsort : sorts argsort.

Lemma edges_sorted_ok : exists E, vr_sort argsort edges = Ok E /\ level_ok 1 (map edge_simplex E) /\
  NoDup (map fst E) /\ forall u v, In (u, v) (map fst E) <-> (u < v < n)%nat /\ adj u v.
Proof.
  destruct (vr_sort_ok argsort edges Hsort) as (E & HE & Hp & Hs). exists E. split; auto.
  assert (Hn : NoDup (map fst E)).
  { apply (Permutation_NoDup (Permutation_map fst Hp)). apply edges_NoDup. }
  assert (Hin : forall u v x, In ((u, v), x) E <-> (u < v < n)%nat /\ adj u v /\ x = dist Dist u v).
  { intros. rewrite <- in_edges. split; apply Permutation_in; auto. symmetry; auto. }
  split; [constructor|split]; auto.
  - rewrite map_map. replace (map (fun x => fst (edge_simplex x)) E)
      with (map (fun e : nat * nat => [fst e; snd e]) (map fst E)) by (rewrite map_map; reflexivity).
    apply NoDup_map_on; auto. intros [a b] [a' b'] _ _. simpl. congruence.
  - intros s x. rewrite in_map_iff. split.
    + intros ([[u v] y] & E' & H). unfold edge_simplex in E'. simpl in E'. injection E' as <- <-.
      apply Hin in H. destruct H as (H & Ha & ->). split; [apply clique_edge; eauto|]. split.
      * exists u, v. simpl. repeat split; auto; lia.
      * simpl. intros a b [<-|[<-|[]]] [<-|[<-|[]]] Hab; try lia.
    + intros [Hc Hd]. apply clique_edge in Hc. destruct Hc as (u & v & -> & Huv & Ha).
      exists ((u, v), x). split; auto. apply Hin. repeat split; auto; try lia.
      destruct Hd as [(a & b & H1 & H2 & H3 & <-) _]. simpl in *.
      destruct H1 as [<-|[<-|[]]], H2 as [<-|[<-|[]]]; try lia.
  - rewrite map_map. unfold edge_simplex. simpl. auto.
  - intros u v. rewrite in_fst. split.
    + intros (x & H). apply Hin in H. tauto.
    + intros [H Ha]. exists (dist Dist u v). apply Hin. auto.
Qed.

Section Step.
Variable G : list (nat * nat).
Hypothesis HG : NoDup G.
Hypothesis HGin : forall u v, In (u, v) G <-> (u < v < n)%nat /\ adj u v.

Lemma lower_In u v : In u (lower_neighbours G v) <-> In (u, v) G.
Proof.
  unfold lower_neighbours. rewrite isort_In, in_map_iff. split.
  - intros ([a b] & <- & H). apply filter_In in H. destruct H as [H E]. apply Nat.eqb_eq in E. simpl in *. subst. auto.
  - intros H. exists (u, v). split; auto. apply filter_In. simpl. rewrite Nat.eqb_refl. auto.
Qed.

Lemma lower_NoDup v : NoDup (lower_neighbours G v).
Proof.
  unfold lower_neighbours. apply (Permutation_NoDup (isort_perm _ _)).
  apply NoDup_map_on; [apply NoDup_filter; auto|].
  intros [a b] [a' b'] H H'. apply filter_In in H, H'. destruct H as [_ H], H' as [_ H'].
  apply Nat.eqb_eq in H, H'. simpl in *. congruence.
Qed.

Lemma common_lower_ok s : s <> [] -> exists l, common_lower G s = Ok l /\ NoDup l /\
  forall u, In u l <-> forall v, In v s -> In (u, v) G.
Proof.
  destruct s as [|w vs]; [congruence|]. intros _. eexists. split; [reflexivity|].
  enough (H : forall l0, NoDup l0 -> let l := fold_left (fun low_n v => filter (fun k => memn k (lower_neighbours G v)) low_n) vs l0 in
     NoDup l /\ forall u, In u l <-> In u l0 /\ forall v, In v vs -> In (u, v) G).
  { destruct (H _ (lower_NoDup w)) as [H1 H2]. split; auto. intros u. rewrite H2, lower_In. simpl. split.
    - intros [Hw Hv] v [<-|Hv']; auto.
    - intros Hv. split; auto. }
  induction vs as [|v vs IH]; intros l0 Hl0 l.
  - split; auto. intros u. simpl. split; [split; auto; intros _ []|tauto].
  - destruct (IH (filter (fun k => memn k (lower_neighbours G v)) l0)) as [H1 H2].
    { apply NoDup_filter; auto. }
    split; auto. intros u. unfold l. simpl. rewrite H2, filter_In, memn_In, lower_In. split.
    + intros ((H0 & H3) & H4). split; auto. intros w' [<-|Hw']; auto.
    + intros (H0 & H3). repeat split; auto.
Qed.

Lemma vr_cone_ok d L : level_ok d L -> (1 <= d)%nat ->
  exists L', vr_cone Dist G L = Ok L' /\ NoDup (map fst L') /\
    forall s x, In (s, x) L' <-> clique n adj (S d) s /\ diameter Dist s x.
Proof.
  intros HL Hd.
  set (low := fun s => match common_lower G s with Ok l => l | Err _ => [] end).
  set (rad := fun s r v => match cone_rad Dist s r v with Ok x => x | Err _ => 0 end).
  assert (Hlow : forall s, s <> [] -> common_lower G s = Ok (low s) /\ NoDup (low s) /\
     forall u, In u (low s) <-> forall v, In v s -> In (u, v) G).
  { intros s Hs. destruct (common_lower_ok s Hs) as (l & E & H). unfold low. rewrite E. auto. }
  assert (Hne : forall s x, In (s, x) L -> s <> []).
  { intros s x H. apply (lo_in _ _ HL) in H. destruct H as [(Hl & _) _]. destruct s; simpl in *; congruence. }
  assert (Hrad : forall s r v, In (s, r) L -> In v (low s) -> cone_rad Dist s r v = Ok (rad s r v) /\
     r <= rad s r v /\ (forall u, In u s -> dist Dist v u <= rad s r v) /\
     (rad s r v = r \/ exists u, In u s /\ dist Dist v u = rad s r v)).
  { intros s r v Hs Hv. destruct (cone_rad_max Dist s r v) as (x & E & H).
    - intros u Hu. destruct (Hlow s (Hne _ _ Hs)) as (_ & _ & Hl). rewrite Hl in Hv.
      specialize (Hv _ Hu). apply HGin in Hv. apply dist_at_ok; lia.
    - unfold rad. rewrite E. auto. }
  set (g := fun sr : simplex * Z => map (fun v => (v :: fst sr, rad (fst sr) (snd sr) v)) (low (fst sr))).
  exists (flat_map g L). split; [|split].
  - apply flat_mapM_pure. intros [s r] Hs. simpl. destruct (Hlow s (Hne _ _ Hs)) as (E & _). rewrite E. simpl.
    apply mapM_pure. intros v Hv. destruct (Hrad s r v Hs Hv) as (E' & _). rewrite E'. reflexivity.
  - assert (E : map fst (flat_map g L) = flat_map (fun s => map (fun v => v :: s) (low s)) (map fst L)).
    { clear. induction L as [|[s r] L IH]; simpl; auto. rewrite map_app, IH. f_equal.
      unfold g. simpl. rewrite map_map. reflexivity. }
    rewrite E. apply NoDup_flat_map; [apply (lo_nodup _ _ HL)| |].
    + intros s Hs. apply in_fst in Hs. destruct Hs as (r & Hs). destruct (Hlow s (Hne _ _ Hs)) as (_ & H & _).
      apply NoDup_map_on; auto. congruence.
    + intros s s' z _ _ H H'. apply in_map_iff in H, H'. destruct H as (v & <- & _), H' as (v' & E' & _). congruence.
  - intros s x. rewrite in_flat_map. split.
    + intros ([s0 r] & Hs & H). unfold g in H. simpl in H. apply in_map_iff in H.
      destruct H as (v & E & Hv). injection E as <- <-.
      destruct (Hrad _ _ _ Hs Hv) as (_ & H1 & H2 & H3).
      destruct (Hlow s0 (Hne _ _ Hs)) as (_ & _ & Hl). rewrite Hl in Hv.
      apply (lo_in _ _ HL) in Hs. destruct Hs as [Hc Hdi].
      assert (Hv' : forall u, In u s0 -> (v < u < n)%nat /\ adj v u) by (intros u Hu; apply HGin; auto).
      split.
      * apply clique_cons. split; auto. split.
        -- destruct s0 as [|w s0]; [destruct Hc as (Hl' & _); simpl in Hl'; lia|].
           destruct (Hv' w) as [? _]; [simpl; auto|lia].
        -- intros u Hu. destruct (Hv' u Hu). split; auto; lia.
      * apply (diameter_cons Dist v s0 r); auto. intros u Hu. destruct (Hv' u Hu). lia.
    + intros [Hc Hdi]. destruct s as [|v s]; [destruct Hc as (Hl & _); simpl in Hl; lia|].
      apply clique_cons in Hc. destruct Hc as (Hc & Hv & Hu).
      assert (exists r, diameter Dist s r) as [r Hr].
      { assert (Hne' : exists a b, In a s /\ In b s /\ (a < b)%nat).
        { destruct Hc as (Hl & Hi & _). destruct s as [|a [|b s]]; simpl in Hl; try lia.
          inversion Hi as [|? ? ? Ha]; subst. inversion Ha; subst. exists a, b. simpl. auto. }
        clear - Hne'. destruct Hne' as (a & b & Ha & Hb & Hab).
        set (P := filter (fun p => (Nat.ltb (fst p) (snd p))) (list_prod s s)).
        assert (HP : forall u w, In (u, w) P <-> In u s /\ In w s /\ (u < w)%nat).
        { intros u w. unfold P. rewrite filter_In, in_prod_iff. simpl. rewrite Nat.ltb_lt. tauto. }
        assert (Hm : forall Q : list (nat * nat), Q <> [] -> exists p, In p Q /\ forall q, In q Q -> dist Dist (fst q) (snd q) <= dist Dist (fst p) (snd p)).
        { induction Q as [|q Q IH]; [congruence|]. intros _. destruct Q as [|q' Q].
          - exists q. split; simpl; auto. intros ? [<-|[]]. lia.
          - destruct IH as (p & Hp & Hmax); [congruence|].
            destruct (Z_le_gt_dec (dist Dist (fst q) (snd q)) (dist Dist (fst p) (snd p))) as [Hle|Hgt].
            + exists p. split; [right; auto|]. intros t [<-|Ht]; auto.
            + exists q. split; [left; auto|]. intros t [<-|Ht]; [lia|]. specialize (Hmax t Ht). lia. }
        destruct (Hm P) as ([u w] & Hp & Hmax).
        { intros E. assert (In (a, b) P) by (apply HP; auto). rewrite E in H. destruct H. }
        apply HP in Hp. exists (dist Dist u w). split; [exists u, w; tauto|].
        intros u' w' H1 H2 H3. apply (Hmax (u', w')). apply HP. auto. }
      exists (s, r). assert (Hs : In (s, r) L) by (apply (lo_in _ _ HL); auto).
      split; auto. unfold g. simpl. apply in_map_iff. exists v.
      assert (Hvl : In v (low s)).
      { destruct (Hlow s (Hne _ _ Hs)) as (_ & _ & Hl). apply Hl. intros u Hu'. apply HGin.
        destruct (Hu u Hu'). split; auto. destruct Hc as (_ & _ & Hn & _). specialize (Hn u Hu'). lia. }
      split; auto. f_equal. destruct (Hrad _ _ _ Hs Hvl) as (_ & H1 & H2 & H3).
      apply (diameter_unique Dist (v :: s)); auto.
      apply (diameter_cons Dist v s r); auto. intros u Hu'. apply Hu; auto.
Qed.

Lemma vr_levels_ok k d L : level_ok d L -> (1 <= d)%nat ->
  exists Ls, vr_levels argsort Dist G k L = Ok Ls /\ length Ls = k /\
    forall i, (i < k)%nat -> level_ok (S d + i) (nth i Ls []).
Proof.
  revert d L. induction k as [|k IH]; intros d L HL Hd; simpl.
  - exists []. split; auto. split; auto. intros; lia.
  - destruct (vr_cone_ok d L HL Hd) as (L' & E & Hn & Hin). rewrite E. simpl.
    destruct (vr_sort_ok argsort L' Hsort) as (L'' & E' & Hp & Hs). rewrite E'. simpl.
    assert (HL'' : level_ok (S d) L'').
    { constructor; auto.
      - apply (Permutation_NoDup (Permutation_map fst Hp)). auto.
      - intros s x. rewrite <- Hin. split; apply Permutation_in; auto. symmetry; auto. }
    destruct (IH (S d) L'' HL'') as (Ls & E'' & Hl & H); [lia|]. rewrite E''. simpl.
    exists (L'' :: Ls). split; auto. split; [simpl; lia|].
    intros [|i] Hi; simpl.
    + replace (S (d + 0)) with (S d) by lia. auto.
    + replace (S (d + S i)) with (S (S d) + i)%nat by lia. apply H. lia.
Qed.
End Step.

Theorem vietoris_rips_ok max_dim : exists Ls,
  vietoris_rips argsort Dist max_r max_dim =
    Ok (n, map (map fst) Ls, repeat 0 n :: map (map snd) Ls) /\
  length Ls = Z.to_nat (Z.max 1 max_dim) /\
  forall d, (d < length Ls)%nat -> level_ok (S d) (nth d Ls []).
Proof.
  destruct edges_sorted_ok as (E & HE & H1 & HG & HGin).
  set (m := Z.to_nat (if max_dim <? 1 then 1 else max_dim)).
  destruct (vr_levels_ok (map fst E) HG HGin (m - 1) 1 (map edge_simplex E) H1 (le_n 1)) as (Ls & EL & Hl & H).
  exists (map edge_simplex E :: Ls). split; [|split].
  - unfold vietoris_rips. rewrite vr_edges_pure. simpl. rewrite HE. simpl. fold m. rewrite EL. reflexivity.
  - simpl. rewrite Hl. unfold m. destruct (Z.ltb_spec max_dim 1); lia.
  - intros [|d] Hd; simpl; auto. simpl in Hd. replace (S (S d)) with (2 + d)%nat by lia. apply H. lia.
Qed.
End VR.
