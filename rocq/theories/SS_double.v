(** * The double complex, on functions *)
From Verif Require Import Base ListX SortX Lin Gauss_arith Basis_model PH_model PH_lin PH_props Simp_model Spec_Simp Simp_lists Simp_diff Simp_props
  Spec_PH Spec_Rips Rips_bd Rips_chain Rips_props LC_model Spec_LC LC_props SS_model Spec_SS SS_inv SS_page SS_cech SS_lift SS_zig SS_first SS_fplift.
From Coq Require Import Sorted Permutation Znumtheory.
Local Open Scope Z_scope.

Section Double.
Variables (argsort : list Z -> list nat) (rnd : Z -> Z) (Dist : list (list Z)) (max_r max_dim p : Z)
  (IN : list (list (list nat))) (n0 : nat) (nerve : list (list simplex)).
Hypothesis HI : mv_input argsort Dist max_r max_dim p IN n0 nerve.
Variable S : ss.
Hypothesis PO : page_ok argsort rnd Dist max_r max_dim p IN n0 nerve S.
Let m := Z.to_nat max_dim.
Let HC := mv_cover _ _ _ _ _ _ _ _ HI.
Let Hp := mv_prime _ _ _ _ _ _ _ _ HI.
Let lev n := level n0 nerve n.
Let G := G IN S.
Let vbd := local_bd IN S.
Let ci n d k v j := cech_image n0 nerve IN S n d k v j.
Let nb n k s := nerve_bd n0 nerve n k s.
Let sg (d : nat) := (-1) ^ Z.of_nat d.
(** Value of a local chain at a simplex of the cloud. *)
Let gv n k d v T := on_simplices (G n k d) v T.

Let p1 : 1 < p. Proof. destruct Hp. lia. Qed.
Let p_pos : 0 < p. Proof. lia. Qed.

Lemma nb_incl n k s : (n < length nerve)%nat -> (k < length (lev n))%nat -> (s < length (lev (Datatypes.S n)))%nat -> nb n k s <> 0 ->
  incl (ins_of IN (Datatypes.S n) s) (ins_of IN n k).
Proof.
  intros Hn Hk Hs Hne q Hq. unfold nb, nerve_bd in Hne. rewrite coeff_bdc in Hne.
  destruct (face_or_not (nth s (lev (Datatypes.S n)) []) (nth k (lev n) [])) as [(i & Hi & E)|Hno].
  2:{ rewrite bdc_other in Hne by auto. rewrite Z.mul_0_r in Hne. congruence. }
  apply (cov_meet _ _ _ _ HC); [lia|auto|]. intros v Hv. apply (cov_meet _ _ _ _ HC (Datatypes.S n) s q); [lia|auto|exact Hq|].
  fold (lev n) in Hv. rewrite E in Hv. apply facet_In in Hv; [tauto| |auto].
  destruct (cov_simp _ _ _ _ HC) as (Hwf & _). apply (Hwf (Datatypes.S n)). apply nth_In. auto.
Qed.

Lemma G_sub n k s d : (Datatypes.S n < length nerve)%nat -> (k < length (lev n))%nat -> (s < length (lev (Datatypes.S n)))%nat -> (d <= m)%nat -> nb n k s <> 0 ->
  incl (G (Datatypes.S n) s d) (G n k d).
Proof.
  intros Hn Hk Hs Hd Hne T HT. apply (G_In _ _ _ _ _ _ _ _ _ HI S PO (Datatypes.S n) s Hn Hs d T Hd) in HT.
  apply (G_In _ _ _ _ _ _ _ _ _ HI S PO n k ltac:(lia) Hk d T Hd). destruct HT as [H1 H2]. split; auto.
  intros q Hq. apply (nb_incl n k s ltac:(lia) Hk Hs Hne). auto.
Qed.

Lemma ci_global n d k v T : (Datatypes.S n < length nerve)%nat -> (k < length (lev n))%nat -> (d <= m)%nat ->
  gv n k d (ci n d k v) T = sg d * Zsum (length (lev (Datatypes.S n))) (fun s => nb n k s * gv (Datatypes.S n) s d (v s) T).
Proof.
  intros Hn Hk Hd. unfold gv.
  destruct (on_simplices_cases (G n k d) (ci n d k v) T (G_NoDup _ _ _ _ _ _ _ _ _ HI S PO n k ltac:(lia) Hk d)) as [(j & Hj & ET & ->)|[Hno ->]].
  - rewrite <- ET. reflexivity.
  - rewrite Zsum_0; [ring|]. intros s Hs. destruct (Z.eq_dec (nb n k s) 0) as [->|Hne]; [ring|].
    rewrite on_simplices_out; [ring|]. intros HT. apply Hno. apply (G_sub n k s d); auto.
Qed.

Lemma ci_nil n d k v j : lev (Datatypes.S n) = [] -> ci n d k v j = 0.
Proof. intros E. unfold ci, cech_image. fold (lev (Datatypes.S n)). rewrite E. cbn. ring. Qed.

Lemma ci_lin n d k N (c : nat -> Z) (b : nat -> nat -> nat -> Z) v : (forall s i, (s < length (lev (Datatypes.S n)))%nat -> (i < length (G (Datatypes.S n) s d))%nat -> cong p (v s i) (Zsum N (fun t => c t * b t s i))) ->
  forall j, cong p (ci n d k v j) (Zsum N (fun t => c t * ci n d k (b t) j)).
Proof.
  intros H j. unfold ci, cech_image. fold (lev (Datatypes.S n)).
  transitivity (sg d * Zsum (length (lev (Datatypes.S n))) (fun s => Zsum N (fun t => c t * (nerve_bd n0 nerve n k s * on_simplices (G (Datatypes.S n) s d) (b t s) (nth j (G n k d) []))))).
  - apply cong_mul; [reflexivity|]. apply Zsum_cong. intros s Hs.
    change (simplices IN S (Datatypes.S n) s d) with (G (Datatypes.S n) s d).
    rewrite (on_simplices_cong p _ (v s) (fun i => Zsum N (fun t => c t * b t s i))) by (intros; apply H; auto).
    rewrite on_simplices_lin. apply cong_eq. rewrite <- Zsum_scale. apply Zsum_ext. intros t _. change (simplices IN S n k d) with (G n k d). change (fun i : nat => b t s i) with (b t s). ring.
  - apply cong_eq. rewrite Zsum_swap. rewrite <- Zsum_scale. apply Zsum_ext. intros t _. rewrite Zsum_scale. fold (sg d).
    match goal with |- _ * (_ * ?A) = _ * (_ * ?B) => change B with A end. ring.
Qed.

Lemma ci_chain n d k r v : (Datatypes.S n < length nerve)%nat -> (k < length (lev n))%nat -> (d <= m)%nat ->
  (forall s, (s < length (lev (Datatypes.S n)))%nat -> local_chain p Dist IN S (Datatypes.S n) d s r (v s)) -> local_chain p Dist IN S n d k r (ci n d k v).
Proof.
  intros Hn Hk Hd Hv j Hj. change (simplices IN S n k d) with (G n k d).
  destruct (Nat.lt_ge_cases j (length (G n k d))) as [Hl|Hl]; [|unfold ci in Hj; rewrite (cech_image_out _ _ _ _ _ _ _ _ _ HI S PO n d k v j Hn Hk Hd Hl), Zmod_0_l in Hj; congruence].
  split; auto. unfold ci, cech_image in Hj. fold (lev (Datatypes.S n)) in Hj. rewrite (z_iff p _ p1) in Hj. set (T := nth j (simplices IN S n k d) []) in *.
  change (rips Dist d r T).
  destruct (Zsum_nz_mod p (length (lev (Datatypes.S n))) (fun s => nerve_bd n0 nerve n k s * on_simplices (simplices IN S (Datatypes.S n) s d) (v s) T)) as (s & Hs & Hne); [lia| |].
  { intros X. apply Hj. apply (z_iff p _ p1) in X. rewrite X. apply cong_eq. ring. }
  rewrite (z_iff p _ p1) in Hne.
  assert (Hne' : ~ cong p (on_simplices (G (Datatypes.S n) s d) (v s) T) 0).
  { intros X. apply Hne. change (simplices IN S (Datatypes.S n) s d) with (G (Datatypes.S n) s d). rewrite X. apply cong_eq. ring. }
  destruct (on_simplices_cases (G (Datatypes.S n) s d) (v s) T (G_NoDup _ _ _ _ _ _ _ _ _ HI S PO (Datatypes.S n) s Hn Hs d)) as [(i & Hi & ET & E)|[_ E]]; rewrite E in Hne'.
  - destruct (Hv s Hs i) as [_ H]; [rewrite (z_iff p _ p1); auto|]. rewrite <- ET. exact H.
  - exfalso. apply Hne'. reflexivity.
Qed.

Lemma ci_bd n d k v j : (Datatypes.S n < length nerve)%nat -> (k < length (lev n))%nat -> (d < m)%nat ->
  cong p (vbd n d k (ci n (Datatypes.S d) k v) j) (- ci n d k (fun s => vbd (Datatypes.S n) d s (v s)) j).
Proof.
  intros Hn Hk Hd. destruct (Nat.lt_ge_cases j (length (G n k d))) as [Hj|Hj].
  2:{ unfold vbd, ci. rewrite (cech_image_out _ _ _ _ _ _ _ _ _ HI S PO n d k _ j Hn Hk ltac:(lia) Hj).
      rewrite (vbd_out _ _ _ _ _ _ _ _ _ S PO n d k _ j ltac:(lia) Hk Hd Hj). reflexivity. }
  set (T := nth j (G n k d) []).
  assert (Evb : forall n' k' v' j', (n' < length nerve)%nat -> (k' < length (lev n'))%nat -> (j' < length (G n' k' d))%nat -> cong p (vbd n' d k' v' j')
    (dsign d * Zsum (length (G n' k' (Datatypes.S d))) (fun i => bdc (nth j' (G n' k' d) []) (nth i (G n' k' (Datatypes.S d)) []) * v' i)))
    by (intros; apply (vbd_bdc _ _ _ _ _ _ _ _ _ HI S PO); auto).
  rewrite (Evb n k _ j ltac:(lia) Hk Hj). fold T. unfold ci at 2. unfold cech_image. fold (lev (Datatypes.S n)). fold (sg d). fold T.
  set (B := fun s => Zsum (length (G (Datatypes.S n) s (Datatypes.S d))) (fun i => bdc T (nth i (G (Datatypes.S n) s (Datatypes.S d)) []) * v s i)).
  rewrite (Zsum_cong p (length (lev (Datatypes.S n))) _ (fun s => dsign d * (nb n k s * B s))).
  2:{ intros s Hs. rewrite (Z.mul_comm (dsign d)), <- Z.mul_assoc. apply cong_mul; [reflexivity|].
      destruct (on_simplices_cases (G (Datatypes.S n) s d) (vbd (Datatypes.S n) d s (v s)) T (G_NoDup _ _ _ _ _ _ _ _ _ HI S PO (Datatypes.S n) s Hn Hs d)) as [(j' & Hj' & ET & E)|[Hno E]];
        change (simplices IN S (Datatypes.S n) s d) with (G (Datatypes.S n) s d); change (simplices IN S n k d) with (G n k d); fold T; rewrite E.
      - rewrite (Evb (Datatypes.S n) s _ j' Hn Hs Hj'). rewrite ET. apply cong_eq. unfold B. ring.
      - apply cong_eq. unfold B. rewrite Zsum_0; [ring|]. intros i Hi. pose proof (bdc_outside _ _ _ _ _ _ _ _ _ HI S PO (Datatypes.S n) d s T i Hn Hs Hd Hno Hi) as X. fold G in X. rewrite X. ring. }
  rewrite (Zsum_ext (length (G n k (Datatypes.S d))) _ (fun i => Zsum (length (lev (Datatypes.S n)))
      (fun s => sg (Datatypes.S d) * (nb n k s * (bdc T (nth i (G n k (Datatypes.S d)) []) * gv (Datatypes.S n) s (Datatypes.S d) (v s) (nth i (G n k (Datatypes.S d)) [])))))).
  2:{ intros i Hi. unfold ci, cech_image. fold (lev (Datatypes.S n)).
      rewrite Zsum_scale. rewrite Z.mul_assoc, (Z.mul_comm (bdc _ _)), <- Z.mul_assoc. f_equal. rewrite <- Zsum_scale. apply Zsum_ext. intros s Hs. unfold gv, nb. 
      change (simplices IN S (Datatypes.S n) s (Datatypes.S d)) with (G (Datatypes.S n) s (Datatypes.S d)). change (simplices IN S n k (Datatypes.S d)) with (G n k (Datatypes.S d)). ring. }
  rewrite Zsum_swap.
  rewrite (Zsum_ext (length (lev (Datatypes.S n))) _ (fun s => sg (Datatypes.S d) * (nb n k s * B s))).
  2:{ intros s Hs. rewrite Zsum_scale, Zsum_scale. f_equal. destruct (Z.eq_dec (nb n k s) 0) as [->|Hne]; [ring|]. f_equal.
      unfold gv, B. apply sum_on_simplices; [apply (G_NoDup _ _ _ _ _ _ _ _ _ HI S PO n k ltac:(lia) Hk)|]. apply G_sub; auto. }
  rewrite !Zsum_scale. apply cong_eq. unfold sg. rewrite Nat2Z.inj_succ, Z.pow_succ_r by lia. ring.
Qed.

Lemma ci_ci n d k v j : (Datatypes.S (Datatypes.S n) < length nerve)%nat -> (k < length (lev n))%nat -> (d <= m)%nat ->
  cong p (ci n d k (fun s => ci (Datatypes.S n) d s v) j) 0.
Proof.
  intros Hn Hk Hd. set (T := nth j (G n k d) []).
  assert (E : ci n d k (fun s => ci (Datatypes.S n) d s v) j = sg d * Zsum (length (lev (Datatypes.S n))) (fun s => nb n k s * gv (Datatypes.S n) s d (ci (Datatypes.S n) d s v) T)) by reflexivity.
  rewrite E. clear E.
  rewrite (Zsum_cong p _ _ (fun s => sg d * Zsum (length (lev (Datatypes.S (Datatypes.S n)))) (fun r => Dn S n k s * Dn S (Datatypes.S n) s r * gv (Datatypes.S (Datatypes.S n)) r d (v r) T))).
  2:{ intros s Hs. rewrite ci_global by auto.
      rewrite (Zsum_cong p _ _ (fun r => Dn S (Datatypes.S n) s r * gv (Datatypes.S (Datatypes.S n)) r d (v r) T)).
      2:{ intros r Hr. apply cong_mul; [|reflexivity]. symmetry. apply (Dn_bd _ _ _ _ _ _ _ _ _ HI S PO); auto. lia. }
      rewrite <- (Dn_bd _ _ _ _ _ _ _ _ _ HI S PO n k s ltac:(lia) Hk Hs : cong p _ (nb n k s)). apply cong_eq.
      rewrite (Zsum_ext _ (fun r => Dn S n k s * Dn S (Datatypes.S n) s r * _) (fun r => Dn S n k s * (Dn S (Datatypes.S n) s r * gv (Datatypes.S (Datatypes.S n)) r d (v r) T))) by (intros; ring).
      rewrite Zsum_scale. ring. }
  rewrite Zsum_scale, Zsum_swap. rewrite (Zsum_cong0 p); [apply cong_eq; ring|]. intros r Hr. cbv beta.
  rewrite (Zsum_ext _ _ (fun s => gv (Datatypes.S (Datatypes.S n)) r d (v r) T * (Dn S n k s * Dn S (Datatypes.S n) s r))) by (intros; ring).
  rewrite Zsum_scale.
  destruct (ndiff_ok _ _ _ _ _ _ _ _ _ HI S PO n ltac:(lia)) as (_ & _ & R1 & C1 & _).
  destruct (ndiff_ok _ _ _ _ _ _ _ _ _ HI S PO (Datatypes.S n) ltac:(lia)) as (_ & _ & R2 & C2 & _).
  destruct (C18_aux n0 nerve p n0 (s_ndiff S) p1 (cov_simp _ _ _ _ HC) (po_ndiff _ _ _ _ _ _ _ _ _ _ PO) n k r) as (_ & H0).
  { destruct (differentials_ok n0 nerve p p1 (cov_dim _ _ _ _ HC)) as (nd & End & Hl & _); [apply (cov_simp _ _ _ _ HC)|].
    rewrite (po_ndiff _ _ _ _ _ _ _ _ _ _ PO) in End. injection End as ->. lia. }
  { rewrite R1. auto. }
  { rewrite C2. auto. }
  rewrite C1 in H0. apply (z_iff p _ p1) in H0. unfold Dn. fold (lev (Datatypes.S n)) in H0. rewrite H0. apply cong_eq. ring.
Qed.
End Double.
