(** * The local pipeline on another scale, up to a smaller radius and for another order of the points *)
From Verif Require Import Base ListX SortX Basis_model PH_model Simp_model Spec_Simp Simp_props Spec_PH Spec_Rips Spec_Bars Spec_MV Bars Rips_bars Spec_Symm Rips_scale Rips_order Rips_dup.
From Coq Require Import Permutation Znumtheory.
Local Open Scope Z_scope.

Section Local.
Variables (as1 as2 : list Z -> list nat) (rnd1 rnd2 : Z -> Z).
Hypothesis S1 : sorts as1.
Hypothesis S2 : sorts as2.
Variables (Dist Dist' : list (list Z)) (M M' m p : Z).
Hypothesis Q1 : square Dist.
Hypothesis Q2 : square Dist'.
Hypothesis N1 : forall u v, (u < v < length Dist)%nat -> 0 <= dist Dist u v.
Hypothesis HM : 0 < M.
Hypothesis HM' : 0 < M'.
Hypothesis Hp : prime p.
Variables (Cs Cs' : list (list simplex)) (Ds Ds' : list mat) (out out' : ph_out).
Hypothesis E1 : local_homology as1 rnd1 Dist M m p = Ok (Cs, Ds, out).
Hypothesis E2 : local_homology as2 rnd2 Dist' M' m p = Ok (Cs', Ds', out').
Variable d : nat.
Hypothesis Hd : (d < Z.to_nat (Z.max 1 m))%nat.

Let bars := b_bars (nth d (ph_hom out) empty_basis).
Let bars' := b_bars (nth d (ph_hom out') empty_basis).

Lemma first_bars_ok : rips_barcode p Dist M d bars.
Proof. exact (C26_barcode_aux as1 S1 rnd1 Dist M m p Q1 N1 HM Hp Cs Ds out E1 d Hd). Qed.

Lemma second_bars (N2 : forall u v, (u < v < length Dist')%nat -> 0 <= dist Dist' u v) b : rips_barcode p Dist' M' d b -> Permutation bars' b.
Proof. intros H. apply Permutation_sym. exact (C26_barcode_unique_aux as2 S2 rnd2 Dist' M' m p Q2 N2 HM' Hp Cs' Ds' out' E2 d b Hd H). Qed.

Lemma local_scale f : scale f -> rescaled f Dist Dist' -> M' = f M -> Permutation bars' (scale_bars f bars).
Proof.
  intros Hf HD HE. apply second_bars.
  - intros u v H. rewrite (proj1 HD) in H. rewrite (proj2 HD) by exact H. rewrite <- (proj1 Hf). apply scale_mono; [exact Hf|lia|apply N1; exact H].
  - rewrite HE. apply (rips_scale p f Dist Dist' M d bars Hp Hf HD N1 ltac:(lia) first_bars_ok).
Qed.

Lemma local_cut : Dist' = Dist -> M' <= M -> Permutation bars' (cut_bars M' bars).
Proof. intros E HL. apply second_bars; [rewrite E; exact N1|]. rewrite E. apply (barcode_cut p _ _ M M' bars HL first_bars_ok). Qed.

Lemma local_order l : symmetric Dist -> reordered l Dist Dist' -> M' = M -> Permutation bars' bars.
Proof.
  intros Hs HR HE. apply second_bars; [|rewrite HE; exact (rips_order p l Dist Dist' M d bars Hp Hs HR first_bars_ok)].
  destruct HR as (HL & HP & HD). intros u v H. rewrite HL in H. rewrite HD by exact H.
  assert (Ll : length l = length Dist) by (rewrite (Permutation_length HP); apply seq_length).
  assert (B : forall i, (i < length Dist)%nat -> (nth i l 0 < length Dist)%nat).
  { intros i Hi. assert (X : In (nth i l 0%nat) l) by (apply nth_In; lia). apply (Permutation_in _ HP), in_seq in X. lia. }
  pose proof (B u ltac:(lia)) as Bu. pose proof (B v ltac:(lia)) as Bv.
  assert (nth u l 0%nat <> nth v l 0%nat).
  { intros E. apply (proj1 (NoDup_nth l 0%nat)) in E; [lia| |lia|lia]. apply (Permutation_NoDup (Permutation_sym HP)), seq_NoDup. }
  destruct (Nat.lt_ge_cases (nth u l 0%nat) (nth v l 0%nat)); [apply N1; lia|]. rewrite Hs by assumption. apply N1. lia.
Qed.

Lemma local_repeat l : symmetric Dist -> (forall u, (u < length Dist)%nat -> dist Dist u u = 0) -> repeated l Dist Dist' -> M' = M -> Permutation bars' bars.
Proof.
  intros Hs H0 HR HE. apply second_bars; [|rewrite HE; exact (rips_repeat p l Dist Dist' M d bars Hp Hs H0 HR first_bars_ok)].
  destruct HR as (HL & HI & HD). intros u v H. rewrite HL in H. rewrite HD by exact H.
  assert (B : forall i, (i < length l)%nat -> (nth i l 0 < length Dist)%nat) by (intros i Hi; apply HI, nth_In, Hi).
  pose proof (B u ltac:(lia)) as Bu. pose proof (B v ltac:(lia)) as Bv.
  destruct (Nat.lt_trichotomy (nth u l 0%nat) (nth v l 0%nat)) as [L|[L|L]]; [apply N1; lia|rewrite L, H0 by assumption; lia|]. rewrite Hs by assumption. apply N1. lia.
Qed.
End Local.

Theorem local_scale_all : forall as1 as2 rnd1 rnd2 f Dist Dist' max_r max_dim p, sorts as1 -> sorts as2 -> square Dist -> square Dist' ->
  (forall u v, (u < v < length Dist)%nat -> 0 <= dist Dist u v) -> 0 < max_r -> prime p -> scale f -> rescaled f Dist Dist' ->
  forall Cs Ds out Cs' Ds' out', local_homology as1 rnd1 Dist max_r max_dim p = Ok (Cs, Ds, out) -> local_homology as2 rnd2 Dist' (f max_r) max_dim p = Ok (Cs', Ds', out') ->
  forall d, (d < Z.to_nat (Z.max 1 max_dim))%nat -> Permutation (b_bars (nth d (ph_hom out') empty_basis)) (scale_bars f (b_bars (nth d (ph_hom out) empty_basis))).
Proof.
  intros as1 as2 rnd1 rnd2 f Dist Dist' M m p S1 S2 Q1 Q2 N1 HM Hp Hf HD Cs Ds out Cs' Ds' out' E1 E2 d Hd.
  refine (local_scale as1 as2 rnd1 rnd2 S1 S2 Dist Dist' M (f M) m p Q1 Q2 N1 HM _ Hp Cs Cs' Ds Ds' out out' E1 E2 d Hd f Hf HD eq_refl). rewrite <- (proj1 Hf). apply Hf; lia.
Qed.

Theorem local_cut_all : forall as1 as2 rnd1 rnd2 Dist max_r max_r' max_dim p, sorts as1 -> sorts as2 -> square Dist ->
  (forall u v, (u < v < length Dist)%nat -> 0 <= dist Dist u v) -> 0 < max_r' -> max_r' <= max_r -> prime p ->
  forall Cs Ds out Cs' Ds' out', local_homology as1 rnd1 Dist max_r max_dim p = Ok (Cs, Ds, out) -> local_homology as2 rnd2 Dist max_r' max_dim p = Ok (Cs', Ds', out') ->
  forall d, (d < Z.to_nat (Z.max 1 max_dim))%nat -> Permutation (b_bars (nth d (ph_hom out') empty_basis)) (cut_bars max_r' (b_bars (nth d (ph_hom out) empty_basis))).
Proof.
  intros as1 as2 rnd1 rnd2 Dist M M' m p S1 S2 Q N1 HM' HL Hp Cs Ds out Cs' Ds' out' E1 E2 d Hd.
  refine (local_cut as1 as2 rnd1 rnd2 S1 S2 Dist Dist M M' m p Q Q N1 _ HM' Hp Cs Cs' Ds Ds' out out' E1 E2 d Hd eq_refl HL). lia.
Qed.

Theorem local_order_all : forall as1 as2 rnd1 rnd2 l Dist Dist' max_r max_dim p, sorts as1 -> sorts as2 -> square Dist -> square Dist' ->
  (forall u v, (u < v < length Dist)%nat -> 0 <= dist Dist u v) -> symmetric Dist -> 0 < max_r -> prime p -> reordered l Dist Dist' ->
  forall Cs Ds out Cs' Ds' out', local_homology as1 rnd1 Dist max_r max_dim p = Ok (Cs, Ds, out) -> local_homology as2 rnd2 Dist' max_r max_dim p = Ok (Cs', Ds', out') ->
  forall d, (d < Z.to_nat (Z.max 1 max_dim))%nat -> Permutation (b_bars (nth d (ph_hom out') empty_basis)) (b_bars (nth d (ph_hom out) empty_basis)).
Proof.
  intros as1 as2 rnd1 rnd2 l Dist Dist' M m p S1 S2 Q1 Q2 N1 Hs HM Hp HR Cs Ds out Cs' Ds' out' E1 E2 d Hd.
  exact (local_order as1 as2 rnd1 rnd2 S1 S2 Dist Dist' M M m p Q1 Q2 N1 HM HM Hp Cs Cs' Ds Ds' out out' E1 E2 d Hd l Hs HR eq_refl).
Qed.

Theorem local_repeat_all : forall as1 as2 rnd1 rnd2 l Dist Dist' max_r max_dim p, sorts as1 -> sorts as2 -> square Dist -> square Dist' ->
  (forall u v, (u < v < length Dist)%nat -> 0 <= dist Dist u v) -> symmetric Dist -> (forall u, (u < length Dist)%nat -> dist Dist u u = 0) -> 0 < max_r -> prime p -> repeated l Dist Dist' ->
  forall Cs Ds out Cs' Ds' out', local_homology as1 rnd1 Dist max_r max_dim p = Ok (Cs, Ds, out) -> local_homology as2 rnd2 Dist' max_r max_dim p = Ok (Cs', Ds', out') ->
  forall d, (d < Z.to_nat (Z.max 1 max_dim))%nat -> Permutation (b_bars (nth d (ph_hom out') empty_basis)) (b_bars (nth d (ph_hom out) empty_basis)).
Proof.
  intros as1 as2 rnd1 rnd2 l Dist Dist' M m p S1 S2 Q1 Q2 N1 Hs H0 HM Hp HR Cs Ds out Cs' Ds' out' E1 E2 d Hd.
  exact (local_repeat as1 as2 rnd1 rnd2 S1 S2 Dist Dist' M M m p Q1 Q2 N1 HM HM Hp Cs Cs' Ds Ds' out out' E1 E2 d Hd l Hs H0 HR eq_refl).
Qed.
