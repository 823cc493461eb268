(** * The 0 page: what is known of each local complex, and its simplices as simplices of the cloud *)
From Verif Require Import Base ListX SortX Lin Basis_model PH_model PH_lin PH_props Simp_model Spec_Simp Simp_lists Simp_diff Simp_props
  Spec_PH Spec_Rips Rips_bd Rips_chain Rips_props LC_model LC_props SS_model Spec_SS.
From Coq Require Import Sorted Permutation Znumtheory.
Local Open Scope Z_scope.

(** ** Relabelling *)
Section Glob.
Variable ins : list nat.
Hypothesis Hins : increasing ins.
Let K := length ins.

Lemma glob_length s : length (glob ins s) = length s.
Proof. apply map_length. Qed.

Lemma glob_nth s i : (i < length s)%nat -> nth i (glob ins s) 0%nat = nth (nth i s 0%nat) ins 0%nat.
Proof. intros H. unfold glob. rewrite (nth_map _ s i 0%nat) by auto. reflexivity. Qed.

Lemma glob_increasing s : increasing s -> (forall v, In v s -> (v < K)%nat) -> increasing (glob ins s).
Proof.
  intros Hs Hv. apply (nth_sorted _ _ 0%nat). intros i j Hij. rewrite glob_length in Hij. rewrite !glob_nth by lia.
  apply (increasing_nth ins Hins). split; [apply increasing_nth; auto|]. apply Hv. apply nth_In. lia.
Qed.

Lemma glob_inj s t : (forall v, In v s -> (v < K)%nat) -> (forall v, In v t -> (v < K)%nat) -> glob ins s = glob ins t -> s = t.
Proof.
  revert t. induction s as [|x s IH]; intros [|y t] Hs Ht E; simpl in *; try discriminate; auto.
  injection E as E1 E2. f_equal; [apply (increasing_nth_inj ins); auto|apply IH; auto].
Qed.

Lemma glob_facet k s : facet k (glob ins s) = glob ins (facet k s).
Proof. unfold facet, glob. rewrite map_app, firstn_map, skipn_map. reflexivity. Qed.

Lemma glob_In s q : In q (glob ins s) <-> exists v, In v s /\ q = nth v ins 0%nat.
Proof. unfold glob. rewrite in_map_iff. split; intros (v & H1 & H2); eauto. Qed.

(** Simplices with vertices in [ins] come from simplices on positions. *)
Lemma glob_onto T : increasing T -> incl T ins ->
  exists s, glob ins s = T /\ increasing s /\ (forall v, In v s -> (v < K)%nat) /\ length s = length T.
Proof.
  intros HT Hi. set (pos := fun q => match find_idx (Nat.eqb q) ins with Some i => i | None => 0%nat end).
  assert (Hp : forall q, In q T -> (pos q < K)%nat /\ nth (pos q) ins 0%nat = q).
  { intros q Hq. destruct (find_idx_in q ins (Hi q Hq)) as (i & E & Hl & En). unfold pos. rewrite E. auto. }
  assert (E : glob ins (map pos T) = T).
  { unfold glob. rewrite map_map. rewrite <- (map_id T) at 2. apply map_ext_in. intros q Hq. apply Hp; auto. }
  exists (map pos T). split; [auto|]. split; [|split].
  - apply (nth_sorted _ _ 0%nat). intros i j Hij. rewrite map_length in Hij.
    rewrite !(nth_map pos T _ 0%nat) by lia.
    destruct (Hp (nth i T 0%nat)) as [L1 E1]; [apply nth_In; lia|]. destruct (Hp (nth j T 0%nat)) as [L2 E2]; [apply nth_In; lia|].
    pose proof (increasing_nth T HT i j Hij) as Hlt. destruct (lt_eq_lt_dec (pos (nth i T 0%nat)) (pos (nth j T 0%nat))) as [[H|H]|H]; auto; exfalso.
    + rewrite H in E1. lia.
    + pose proof (increasing_nth ins Hins _ _ (conj H L1)). lia.
  - intros v Hv. apply in_map_iff in Hv. destruct Hv as (q & <- & Hq). apply Hp; auto.
  - apply map_length.
Qed.

Lemma bdc_glob s t : (forall v, In v s -> (v < K)%nat) -> (forall v, In v t -> (v < K)%nat) -> bdc (glob ins t) (glob ins s) = bdc t s.
Proof.
  intros Hs Ht. unfold bdc. rewrite glob_length. apply Zsum_ext. intros k Hk. f_equal. f_equal. rewrite glob_facet.
  assert (Hf : forall v, In v (facet k s) -> (v < K)%nat).
  { intros v Hv. apply Hs. unfold facet in Hv. apply in_app_iff in Hv. rewrite <- (firstn_skipn k s). apply in_app_iff.
    destruct Hv as [Hv|Hv]; auto. right. revert Hv. clear. revert k. induction s as [|x s IH]; intros [|k]; simpl; auto. }
  destruct (simp_eqb (facet k s) t) eqn:E.
  - apply simp_eqb_eq in E. rewrite E. apply simp_eqb_eq. reflexivity.
  - destruct (simp_eqb (glob ins (facet k s)) (glob ins t)) eqn:E'; auto. apply simp_eqb_eq in E'. apply glob_inj in E'; auto.
    apply simp_eqb_eq in E'. congruence.
Qed.
End Glob.

(** ** One local complex *)
Section Local.
Variables (argsort : list Z -> list nat) (rnd : Z -> Z) (Dist : list (list Z)) (max_r max_dim p : Z).
Hypothesis Hsort : sorts argsort.
Hypothesis Hsq : square Dist.
Hypothesis Hnn : forall u v, (u < v < length Dist)%nat -> 0 <= dist Dist u v.
Hypothesis Hmax : 0 < max_r.
Hypothesis Hmd : 0 < max_dim.
Hypothesis Hp : prime p.
Let N := length Dist.
Let m := Z.to_nat max_dim.

Record local_ok (ins : list nat) (l : local) (R : list (list Z)) : Prop := {
  lo_n0 : l_n0 l = length ins;
  lo_Cs : length (l_Cs l) = m;
  lo_simp : simplicial (length ins) (l_Cs l);
  lo_level : forall d s, (d <= m)%nat -> In s (level (length ins) (l_Cs l) d) <->
    clique (length ins) (fun u v => near Dist max_r (nth u ins 0%nat) (nth v ins 0%nat)) d s;
  lo_Ds : length (l_Ds l) = m;
  lo_diff : forall d, (d < m)%nat -> let D := nth d (l_Ds l) (Mat 0 []) in
    wf_mat D /\ nrows D = length (level (length ins) (l_Cs l) d) /\ ncols D = length (level (length ins) (l_Cs l) (S d)) /\
    forall i j, (i < length (level (length ins) (l_Cs l) d))%nat -> (j < length (level (length ins) (l_Cs l) (S d)))%nat ->
      get D i j = (dsign d * bdc (nth i (level (length ins) (l_Cs l) d) []) (nth j (level (length ins) (l_Cs l) (S d)) [])) mod p;
  lo_size : forall d, csize R d = length (level (length ins) (l_Cs l) d);
  lo_valid : valid_complex p max_r (length ins) (l_Ds l) R;
  lo_ph : persistent_homology rnd (length ins) (l_Ds l) R max_r p = Ok (l_out l);
  lo_crad : forall d i, (1 <= d <= m)%nat -> (i < length (level (length ins) (l_Cs l) d))%nat ->
    diameter Dist (glob ins (nth i (level (length ins) (l_Cs l) d) [])) (crad R d i)
}.

Lemma Hp1' : 1 < p. Proof. destruct Hp. lia. Qed.

Lemma local_ph_ok ins : increasing ins -> (forall q, In q ins -> (q < N)%nat) ->
  exists l R, local_ph argsort rnd Dist max_r max_dim p ins = Ok l /\ local_ok ins l R.
Proof.
  intros Hi Hlt. unfold local_ph.
  set (D := map (fun i => map (fun j => nth j (nth i Dist []) 0) ins) ins).
  assert (ED : sub_dist Dist ins = Ok D).
  { unfold sub_dist, D. apply mapM_pure. intros i Hin. apply mapM_pure. intros j Hj. unfold dist_at.
    rewrite (nth_err_nth Dist i []) by (apply Hlt; auto). cbn [bind]. apply nth_err_nth.
    rewrite Hsq by (apply Hlt; auto). apply Hlt; auto. }
  assert (HlD : length D = length ins) by apply map_length.
  assert (HsD : square D).
  { intros i Hil. rewrite HlD in *. unfold D. rewrite (nth_map _ ins i 0%nat) by auto. apply map_length. }
  assert (HdD : forall u v, (u < length ins)%nat -> (v < length ins)%nat ->
    dist D u v = dist Dist (nth u ins 0%nat) (nth v ins 0%nat)).
  { intros u v Hu Hv. unfold dist, D. rewrite (nth_map _ ins v 0%nat) by auto.
    rewrite (nth_map _ ins u 0%nat) by auto. reflexivity. }
  assert (HnD : forall u v, (u < v < length D)%nat -> 0 <= dist D u v).
  { intros u v Huv. rewrite HlD in Huv. rewrite HdD by lia. apply Hnn. split.
    - apply increasing_nth; auto.
    - apply Hlt. apply nth_In. lia. }
  destruct (local_total argsort Hsort rnd D HsD HnD max_r max_dim p Hmax Hp) as (R & Cs & Ds & out & E & E1 & E2 & E3 & Hl).
  replace (Z.max 1 max_dim) with max_dim in Hl by lia.
  rewrite ED. cbn [bind]. rewrite E. cbn [bind]. exists (Local (length D) Cs Ds out), R. split; [reflexivity|].
  destruct (diff_facts argsort Hsort D HsD HnD max_r max_dim p Hp1' Cs R Ds E1 E2) as [HlDs Hdf].
  pose proof (C14_aux argsort Hsort D HsD max_r max_dim Cs R _ E1) as (_ & _ & HR).
  assert (Hlev : forall d s, (d <= m)%nat -> In s (level (length D) Cs d) <-> clique (length D) (near D max_r) d s).
  { intros [|d] s Hd.
    - rewrite (in_level_0 D Cs). split.
      + intros (v & Hv & ->). split; [reflexivity|]. split; [repeat constructor|]. split.
        * intros w [<-|[]]; auto.
        * intros a b [<-|[]] [<-|[]]. lia.
      + intros (H1 & _ & H2 & _). destruct s as [|v [|]]; simpl in H1; try lia. exists v. split; auto. apply H2. simpl; auto.
    - split.
      + intros H. apply (level_clique argsort Hsort D HsD max_r max_dim Cs R _ E1 d s) in H. tauto.
      + intros H. apply (clique_level argsort Hsort D HsD max_r max_dim Cs R _ E1 d s); auto. unfold m in Hd. lia. }
  pose proof (vr_simplicial argsort Hsort D HsD max_r max_dim Cs R _ E1) as Hsi.
  pose proof (rips_valid argsort Hsort D HsD HnD max_r max_dim p Hmax Hp1' Cs R Ds E1 E2) as Hva.
  pose proof (csize_L argsort Hsort D HsD HnD max_r max_dim Cs R E1) as Hsz.
  rewrite HlD in *.
  constructor; cbn [l_n0 l_Cs l_Ds l_out]; auto.
  - intros d s Hd. rewrite Hlev by auto. split; intros (H1 & H2 & H3 & H4); repeat split; auto; intros u v Hu Hv Huv;
      specialize (H4 u v Hu Hv Huv); unfold near in *; rewrite HdD in * by auto; auto.
  - rewrite HlDs. unfold m. auto.
  - intros d Hd. apply (Hdf d). unfold m in Hd. lia.
  - intros d i Hd Hil. destruct (HR d) as (_ & H & _); [unfold m in Hd; lia|]. destruct (H i Hil) as [[H1 H2] _]. clear H HR.
    set (s := nth i (level (length ins) Cs d) []) in *.
    destruct (proj1 (Hlev d s (proj2 Hd))) as (L1 & L2 & L3 & _); [apply nth_In; auto|]. unfold crad. split.
    + destruct H1 as (u & v & Hu & Hv & Huv & Euv). exists (nth u ins 0%nat), (nth v ins 0%nat).
      split; [apply glob_In; eauto|]. split; [apply glob_In; eauto|]. split; [apply increasing_nth; auto|].
      rewrite <- HdD by auto. auto.
    + intros a b Ha Hb Hab. apply glob_In in Ha, Hb. destruct Ha as (u & Hu & ->), Hb as (v & Hv & ->).
      rewrite <- HdD by auto. apply H2; auto. destruct (lt_eq_lt_dec u v) as [[H|H]|H]; auto; exfalso.
      * subst. lia.
      * pose proof (increasing_nth ins Hi v u (conj H (L3 u Hu))). lia.
Qed.

(** The [d]-simplices of the local complex, as simplices of the cloud. *)
Definition gsim (ins : list nat) (l : local) (d : nat) : list (list nat) := map (glob ins) (level (length ins) (l_Cs l) d).

Section Gsim.
Variables (ins : list nat) (l : local) (R : list (list Z)).
Hypothesis Hi : increasing ins.
Hypothesis Hlt : forall q, In q ins -> (q < N)%nat.
Hypothesis OK : local_ok ins l R.

Lemma gsim_length d : length (gsim ins l d) = length (level (length ins) (l_Cs l) d).
Proof. apply map_length. Qed.

Lemma gsim_nth d i : (i < length (gsim ins l d))%nat -> nth i (gsim ins l d) [] = glob ins (nth i (level (length ins) (l_Cs l) d) []).
Proof. intros H. rewrite gsim_length in H. unfold gsim. rewrite (nth_map (glob ins) _ i []) by auto. reflexivity. Qed.

Lemma lev_lt d s v : In s (level (length ins) (l_Cs l) d) -> In v s -> (v < length ins)%nat.
Proof. intros H1 H2. destruct (lo_simp _ _ _ OK) as (Hwf & _). destruct (Hwf d s H1) as (_ & _ & H). auto. Qed.

Lemma gsim_NoDup d : NoDup (gsim ins l d).
Proof.
  destruct (lo_simp _ _ _ OK) as (_ & Hnd & _). apply NoDup_map_on; auto. intros x y Hx Hy E.
  apply (glob_inj ins Hi) in E; eauto using lev_lt.
Qed.

Lemma gsim_In d T : (d <= m)%nat -> In T (gsim ins l d) <-> clique N (near Dist max_r) d T /\ incl T ins.
Proof.
  intros Hd. unfold gsim. rewrite in_map_iff. split.
  - intros (s & <- & Hs). pose proof (proj1 (lo_level _ _ _ OK d s Hd) Hs) as (H1 & H2 & H3 & H4).
    split; [repeat split|].
    + rewrite glob_length. auto.
    + apply glob_increasing; auto.
    + intros q Hq. apply glob_In in Hq. destruct Hq as (v & Hv & ->). apply Hlt. apply nth_In. auto.
    + intros a b Ha Hb Hab. apply glob_In in Ha, Hb. destruct Ha as (u & Hu & ->), Hb as (v & Hv & ->).
      apply H4; auto. destruct (lt_eq_lt_dec u v) as [[H|H]|H]; auto; exfalso; [subst; lia|].
      pose proof (increasing_nth ins Hi v u (conj H (H3 u Hu))). lia.
    + intros q Hq. apply glob_In in Hq. destruct Hq as (v & Hv & ->). apply nth_In. auto.
  - intros ((H1 & H2 & H3 & H4) & HT). destruct (glob_onto ins Hi T H2 HT) as (s & E & S1 & S2 & S3).
    exists s. split; auto. apply (lo_level _ _ _ OK); auto. split; [lia|]. split; [auto|]. split; [auto|].
    intros u v Hu Hv Huv. apply H4; [rewrite <- E; apply glob_In; eauto|rewrite <- E; apply glob_In; eauto|].
    apply increasing_nth; auto.
Qed.

Lemma gsim_clique d i : (d <= m)%nat -> (i < length (gsim ins l d))%nat -> clique N (near Dist max_r) d (nth i (gsim ins l d) []) /\ incl (nth i (gsim ins l d) []) ins.
Proof. intros Hd H. apply gsim_In; auto. apply nth_In. auto. Qed.

Lemma gsim_diff d i j : (d < m)%nat -> (i < length (gsim ins l d))%nat -> (j < length (gsim ins l (S d)))%nat ->
  get (nth d (l_Ds l) (Mat 0 [])) i j = (dsign d * bdc (nth i (gsim ins l d) []) (nth j (gsim ins l (S d)) [])) mod p.
Proof.
  intros Hd H1 H2. rewrite !gsim_nth by auto. rewrite gsim_length in H1, H2.
  destruct (lo_diff _ _ _ OK d Hd) as (_ & _ & _ & H). rewrite H by auto.
  rewrite bdc_glob; auto; intros v Hv; eapply lev_lt; eauto; apply nth_In; auto.
Qed.

Lemma gsim_facets d T k : (d < m)%nat -> In T (gsim ins l (S d)) -> (k <= S d)%nat -> In (facet k T) (gsim ins l d).
Proof.
  intros Hd HT Hk. unfold gsim in *. apply in_map_iff in HT. destruct HT as (s & <- & Hs). rewrite glob_facet.
  apply in_map. destruct (lo_simp _ _ _ OK) as (_ & _ & H). apply H; auto.
Qed.

Lemma sub_size_ok d : (d <= m)%nat -> sub_size l d = Ok (length (gsim ins l d)).
Proof.
  intros Hd. rewrite gsim_length. unfold sub_size. destruct d as [|d].
  - rewrite (lo_n0 _ _ _ OK). cbn [level]. rewrite map_length, seq_length. reflexivity.
  - rewrite (nth_err_nth (l_Cs l) d []) by (rewrite (lo_Cs _ _ _ OK); lia). reflexivity.
Qed.
End Gsim.
End Local.
