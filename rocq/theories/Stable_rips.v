(** * The computed bars of clouds which are near to each other can be matched *)
From Coq Require Import QArith Permutation Znumtheory.
From Verif Require Import Base ListX Basis_model PH_model Simp_model SS_model Cover_model HP_model Sample_model Spec_Sample Sample_props Spec_Simp Simp_props Spec_PH Spec_Rips Spec_Bars Spec_Call Spec_MV Spec_Two
  Bars Rips_bars Spec_Symm Spec_Agree Agree_props MV_props Spec_Comp Rips_comp Rips_order Rips_dup PH_lin IK_lin Spec_Stable Rips_stable Stable_props Stable_bottle.
Local Open Scope Z_scope.

(** ** Clouds whose points are paired *)
Lemma same_matched p e M Dist Dist' d bars bars' : prime p -> 0 <= e -> length Dist' = length Dist ->
  (forall u v, (u < v < length Dist)%nat -> Z.abs (Z.min M (dist Dist u v) - Z.min M (dist Dist' u v)) <= e) -> rips_barcode p Dist M d bars -> rips_barcode p Dist' M d bars' -> matched_bars e bars bars'.
Proof.
  intros Hp He HL HD HB HB'. assert (P1 : 1 < p) by (destruct Hp; lia). unfold rips_barcode in HB'. rewrite HL in HB'.
  assert (HD' : forall u v, (u < v < length Dist')%nat -> Z.abs (Z.min M (dist Dist' u v) - Z.min M (dist Dist u v)) <= e) by (intros u v H; rewrite HL in H; specialize (HD u v H); lia).
  refine (bottleneck p M e _ _ _ _ bars bars' Hp He _ _ _ _ _ _ _ _ _ _ _ HB HB').
  - intros r _. apply s_cycle_sub. exact P1.
  - intros r _. apply s_bounds_sub. exact P1.
  - intros r _. apply s_cycle_sub. exact P1.
  - intros r _. apply s_bounds_sub. exact P1.
  - intros r s v H. apply s_cycle_mono. intros k t. apply rips_mono. lia.
  - intros r s v H. apply s_bounds_mono. intros k t. apply rips_mono. lia.
  - intros r s v H. apply s_bounds_mono. intros k t. apply rips_mono. lia.
  - intros r v H. apply s_cycle_mono. intros k t. apply (rips_out e M); auto.
  - intros r v H. apply s_cycle_mono. intros k t. apply (rips_out e M); auto.
  - intros r v H. apply s_bounds_mono. intros k t. apply (rips_out e M); auto.
  - intros r v H. apply s_bounds_mono. intros k t. apply (rips_out e M); auto.
Qed.

Theorem paired_matched : forall p e M l l' Dist Dist' d bars bars', prime p -> 0 <= e -> dissimilarity Dist -> dissimilarity Dist' -> paired e M l l' Dist Dist' ->
  rips_barcode p Dist M d bars -> rips_barcode p Dist' M d bars' -> matched_bars e bars bars'.
Proof.
  intros p e M l l' Dist Dist' d bars bars' Hp He HS HS' HP HB HB'. pose proof (pr_length _ _ _ _ _ _ HP) as HL.
  apply (same_matched p e M (dist_of Dist l) (dist_of Dist' l') d); auto.
  - rewrite !dist_of_length. exact HL.
  - intros u v H. rewrite dist_of_length in H. rewrite !dist_of_at by lia. apply (pr_near _ _ _ _ _ _ HP). exact H.
  - destruct HS. apply (rips_repeat p l Dist); auto. apply repeated_of, (pr_left _ _ _ _ _ _ HP).
  - destruct HS'. apply (rips_repeat p l' Dist'); auto. apply repeated_of, (pr_right _ _ _ _ _ _ HP).
Qed.

(** ** The computed bars *)
Theorem match_local : forall as1 as2 rnd1 rnd2 Dist Dist' max_r m1 m2 p e l l', sorts as1 -> sorts as2 -> square Dist -> square Dist' -> dissimilarity Dist -> dissimilarity Dist' ->
  (forall u v, (u < v < length Dist)%nat -> 0 <= dist Dist u v) -> (forall u v, (u < v < length Dist')%nat -> 0 <= dist Dist' u v) -> 0 < max_r -> prime p -> 0 <= e -> paired e max_r l l' Dist Dist' ->
  forall Cs Ds out Cs' Ds' out', local_homology as1 rnd1 Dist max_r m1 p = Ok (Cs, Ds, out) -> local_homology as2 rnd2 Dist' max_r m2 p = Ok (Cs', Ds', out') ->
  forall d, (d < Z.to_nat (Z.max 1 m1))%nat -> (d < Z.to_nat (Z.max 1 m2))%nat -> matched_bars e (b_bars (nth d (ph_hom out) empty_basis)) (b_bars (nth d (ph_hom out') empty_basis)).
Proof.
  intros as1 as2 rnd1 rnd2 Dist Dist' max_r m1 m2 p e l l' S1 S2 Q1 Q2 I1 I2 N1 N2 HM Hp He HP Cs Ds out Cs' Ds' out' E1 E2.
  assert (B : forall d, (d < Z.to_nat (Z.max 1 m1))%nat -> rips_barcode p Dist max_r d (b_bars (nth d (ph_hom out) empty_basis))).
  { intros d Hd. exact (C26_barcode_aux as1 S1 rnd1 Dist max_r m1 p Q1 N1 HM Hp Cs Ds out E1 d Hd). }
  assert (B' : forall d, (d < Z.to_nat (Z.max 1 m2))%nat -> rips_barcode p Dist' max_r d (b_bars (nth d (ph_hom out') empty_basis))).
  { intros d Hd. exact (C26_barcode_aux as2 S2 rnd2 Dist' max_r m2 p Q2 N2 HM Hp Cs' Ds' out' E2 d Hd). }
  intros d H1 H2. exact (paired_matched p e max_r l l' Dist Dist' d _ _ Hp He I1 I2 HP (B d H1) (B' d H2)).
Qed.

Theorem match_zero : forall as1 as2 rnd1 rnd2 dim1 dim2 pc1 pc2 Dist Dist' M m1 m2 div1 div2 ov1 ov2 p e l l' S P H0 Hs S' P' H0' Hs',
  sound_call as1 rnd1 dim1 pc1 Dist M m1 div1 ov1 p -> sound_call as2 rnd2 dim2 pc2 Dist' M m2 div2 ov2 p -> dissimilarity Dist -> dissimilarity Dist' -> 0 <= e -> paired e M l l' Dist Dist' ->
  create_MV_ss as1 rnd1 (fun x => x) dim1 pc1 Dist M m1 div1 ov1 p = Ok (S, P, H0 :: Hs) ->
  create_MV_ss as2 rnd2 (fun x => x) dim2 pc2 Dist' M m2 div2 ov2 p = Ok (S', P', H0' :: Hs') ->
  matched_bars e (b_bars H0) (b_bars H0').
Proof.
  intros as1 as2 rnd1 rnd2 dim1 dim2 pc1 pc2 Dist Dist' M m1 m2 div1 div2 ov1 ov2 p e l l' S P H0 Hs S' P' H0' Hs' C1 C2 I1 I2 He HP E1 E2.
  pose proof (cc_prime _ _ _ _ _ _ _ _ _ (sc_cloud _ _ _ _ _ _ _ _ _ _ C1)) as Hp.
  destruct (sound_zero _ _ _ _ _ _ _ _ _ _ C1 _ _ _ E1) as (a & b & X & B). injection X as <- <-.
  destruct (sound_zero _ _ _ _ _ _ _ _ _ _ C2 _ _ _ E2) as (a & b & X & B'). injection X as <- <-.
  exact (paired_matched p e M l l' Dist Dist' 0 _ _ Hp He I1 I2 HP B B').
Qed.

Theorem match_cover : forall as1 as2 rnd1 rnd2 dim1 dim2 pc1 pc2 Dist Dist' M m1 m2 div1 div2 ov1 ov2 p e l l' S P Hs S' P' Hs',
  sound_call as1 rnd1 dim1 pc1 Dist M m1 div1 ov1 p -> simple_cover dim1 pc1 Dist M m1 div1 ov1 p ->
  sound_call as2 rnd2 dim2 pc2 Dist' M m2 div2 ov2 p -> simple_cover dim2 pc2 Dist' M m2 div2 ov2 p -> dissimilarity Dist -> dissimilarity Dist' -> 0 <= e -> paired e M l l' Dist Dist' ->
  create_MV_ss as1 rnd1 (fun x => x) dim1 pc1 Dist M m1 div1 ov1 p = Ok (S, P, Hs) ->
  create_MV_ss as2 rnd2 (fun x => x) dim2 pc2 Dist' M m2 div2 ov2 p = Ok (S', P', Hs') ->
  exists H0 O H0' O', Hs = results H0 O /\ length O = (Z.to_nat m1 - 1)%nat /\ Hs' = results H0' O' /\ length O' = (Z.to_nat m2 - 1)%nat /\
    forall d, (d < Z.to_nat m1)%nat -> (d < Z.to_nat m2)%nat -> matched_bars e (bars_in H0 O d) (bars_in H0' O' d).
Proof.
  intros as1 as2 rnd1 rnd2 dim1 dim2 pc1 pc2 Dist Dist' M m1 m2 div1 div2 ov1 ov2 p e l l' S P Hs S' P' Hs' C1 K1 C2 K2 I1 I2 He HP E1 E2.
  pose proof (cc_prime _ _ _ _ _ _ _ _ _ (sc_cloud _ _ _ _ _ _ _ _ _ _ C1)) as Hp.
  destruct (sound_simple _ _ _ _ _ _ _ _ _ _ C1 _ _ _ E1 K1) as (H0 & O & X & Y & B). destruct (sound_simple _ _ _ _ _ _ _ _ _ _ C2 _ _ _ E2 K2) as (H0' & O' & X' & Y' & B').
  exists H0, O, H0', O'. repeat (split; [assumption|]). intros d H1 H2. exact (paired_matched p e M l l' Dist Dist' d _ _ Hp He I1 I2 HP (B d H1) (B' d H2)).
Qed.

Theorem match_sample : forall as1 as2 rnd1 rnd2 Dist Dist' max_r m1 m2 p e idx, sorts as1 -> sorts as2 -> square Dist -> square Dist' -> metric Dist -> (0 < length Dist)%nat ->
  0 < max_r -> prime p -> sampled idx Dist Dist' -> covering e idx Dist ->
  forall Cs Ds out Cs' Ds' out', local_homology as1 rnd1 Dist max_r m1 p = Ok (Cs, Ds, out) -> local_homology as2 rnd2 Dist' max_r m2 p = Ok (Cs', Ds', out') ->
  forall d, (d < Z.to_nat (Z.max 1 m1))%nat -> (d < Z.to_nat (Z.max 1 m2))%nat -> matched_bars (2 * e) (b_bars (nth d (ph_hom out) empty_basis)) (b_bars (nth d (ph_hom out') empty_basis)).
Proof.
  intros as1 as2 rnd1 rnd2 Dist Dist' max_r m1 m2 p e idx S1 S2 Q1 Q2 HM P0 Hr Hp HS HC.
  assert (NN : forall u v, (u < length Dist)%nat -> (v < length Dist)%nat -> 0 <= dist Dist u v).
  { intros u v Hu Hv. destruct HM as [[Hs H0] HT]. pose proof (HT u v u Hu Hv Hu) as H. rewrite (Hs v u Hv Hu), (H0 u Hu) in H. lia. }
  destruct (sample_paired e max_r idx Dist Dist' HM HS HC) as (l & l' & HP).
  refine (match_local as1 as2 rnd1 rnd2 Dist Dist' max_r m1 m2 p (2 * e) l l' S1 S2 Q1 Q2 (proj1 HM) (sampled_dissimilarity idx Dist Dist' (proj1 HM) HS) _ _ Hr Hp _ HP).
  - intros u v H. apply NN; lia.
  - intros u v H. destruct HS as (HL & HI & HD). rewrite HD by lia. apply NN; apply HI, nth_In; lia.
  - pose proof (covering_nonneg e idx Dist HM (proj1 (proj2 HS)) P0 HC). lia.
Qed.

Theorem match_take_sample : forall (P : Type) (pts : list P) Dist k draw (d0 : P), metric Dist -> square Dist -> length Dist = length pts -> 2 <= k -> (1 < length pts)%nat -> 0 <= draw < Z.of_nat (length pts) ->
  exists idx, take_sample pts (Mat (length pts) Dist) k draw = Ok (map (fun j => nth j pts d0) idx) /\ Z.of_nat (length idx) = Z.min (Z.of_nat (length pts)) k /\ NoDup idx /\ (forall i, In i idx -> (i < length pts)%nat) /\
    forall t e, In t (firstn (length idx - 1) idx) -> dist Dist (nth (length idx - 1) idx 0%nat) t <= e ->
    forall as1 as2 rnd1 rnd2 Dist' max_r m1 m2 p, sorts as1 -> sorts as2 -> square Dist' -> sampled idx Dist Dist' -> 0 < max_r -> prime p ->
    forall Cs Ds out Cs' Ds' out', local_homology as1 rnd1 Dist max_r m1 p = Ok (Cs, Ds, out) -> local_homology as2 rnd2 Dist' max_r m2 p = Ok (Cs', Ds', out') ->
    forall d, (d < Z.to_nat (Z.max 1 m1))%nat -> (d < Z.to_nat (Z.max 1 m2))%nat -> matched_bars (2 * e) (b_bars (nth d (ph_hom out) empty_basis)) (b_bars (nth d (ph_hom out') empty_basis)).
Proof.
  intros P pts Dist k draw d0 HM HQ HL Hk Hn Hdraw.
  assert (HE : forall u v, (u < length pts)%nat -> (v < length pts)%nat -> dist Dist u v = get (Mat (length pts) Dist) u v).
  { intros u v _ Hv. reflexivity. }
  destruct (@take_sample_aux P pts (Mat (length pts) Dist) k draw d0) as (idx & T & L & ND & HI & _ & HF).
  { split.
    - intros i j Hi Hj. rewrite <- HE by assumption. destruct HM as [[Hs H0] HT]. rewrite <- HL in Hi, Hj. pose proof (HT i j i Hi Hj Hi) as H. rewrite (Hs j i Hj Hi), (H0 i Hi) in H. lia.
    - intros i Hi. rewrite <- HE by assumption. apply HM. lia. }
  { lia. }
  { exact Hdraw. }
  exists idx. repeat (split; [assumption|]). intros t e Ht He as1 as2 rnd1 rnd2 Dist' max_r m1 m2 p S1 S2 Q2 HS Hr Hp.
  apply (match_sample as1 as2 rnd1 rnd2 Dist Dist' max_r m1 m2 p e idx S1 S2 HQ Q2 HM ltac:(lia) Hr Hp HS).
  apply (farthest_covering (length pts) (Mat (length pts) Dist) Dist idx t e HE HL HM HI HF ltac:(lia) Ht He).
Qed.
