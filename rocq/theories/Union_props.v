(** * The computed bars of clouds which are made of two parts far from each other *)
From Coq Require Import QArith Permutation Znumtheory.
From Verif Require Import Base ListX Basis_model PH_model Simp_model SS_model Cover_model HP_model Spec_Simp Simp_props Spec_PH Spec_Rips Spec_Bars Spec_Call Spec_MV Spec_Two
  Bars Rips_bars Spec_Symm Rips_order Spec_Agree Agree_props MV_props Spec_Union Rips_union.
Local Open Scope Z_scope.

Theorem union_bars : forall p M l Dist Dist0 D1 D2 d bars b1 b2, prime p -> symmetric Dist -> reordered l Dist Dist0 -> far_parts M Dist0 D1 D2 ->
  rips_barcode p Dist M d bars -> rips_barcode p D1 M d b1 -> rips_barcode p D2 M d b2 -> Permutation bars (b1 ++ b2).
Proof.
  intros p M l Dist Dist0 D1 D2 d bars b1 b2 Hp HS HR HF HB H1 H2. apply (rips_unique p Dist0 M d bars (b1 ++ b2) Hp).
  - apply (rips_order p l Dist); assumption.
  - apply (union_barcode p M Dist0 D1 D2 Hp HF); assumption.
Qed.

Theorem union_local : forall as0 as1 as2 rnd0 rnd1 rnd2 l Dist Dist0 D1 D2 max_r m m1 m2 p, sorts as0 -> sorts as1 -> sorts as2 -> square Dist -> square D1 -> square D2 ->
  (forall u v, (u < v < length Dist)%nat -> 0 <= dist Dist u v) -> (forall u v, (u < v < length D1)%nat -> 0 <= dist D1 u v) -> (forall u v, (u < v < length D2)%nat -> 0 <= dist D2 u v) ->
  0 < max_r -> prime p -> symmetric Dist -> reordered l Dist Dist0 -> far_parts max_r Dist0 D1 D2 ->
  forall Cs Ds out Cs1 Ds1 out1 Cs2 Ds2 out2, local_homology as0 rnd0 Dist max_r m p = Ok (Cs, Ds, out) -> local_homology as1 rnd1 D1 max_r m1 p = Ok (Cs1, Ds1, out1) -> local_homology as2 rnd2 D2 max_r m2 p = Ok (Cs2, Ds2, out2) ->
  forall d, (d < Z.to_nat (Z.max 1 m))%nat -> (d < Z.to_nat (Z.max 1 m1))%nat -> (d < Z.to_nat (Z.max 1 m2))%nat ->
  Permutation (b_bars (nth d (ph_hom out) empty_basis)) (b_bars (nth d (ph_hom out1) empty_basis) ++ b_bars (nth d (ph_hom out2) empty_basis)).
Proof.
  intros as0 as1 as2 rnd0 rnd1 rnd2 l Dist Dist0 D1 D2 max_r m m1 m2 p S0 S1 S2 Q0 Q1 Q2 N0 N1 N2 HM Hp HS HR HF Cs Ds out Cs1 Ds1 out1 Cs2 Ds2 out2 E0 E1 E2 d H0 H1 H2.
  apply (union_bars p max_r l Dist Dist0 D1 D2 d); auto.
  - exact (C26_barcode_aux as0 S0 rnd0 Dist max_r m p Q0 N0 HM Hp Cs Ds out E0 d H0).
  - exact (C26_barcode_aux as1 S1 rnd1 D1 max_r m1 p Q1 N1 HM Hp Cs1 Ds1 out1 E1 d H1).
  - exact (C26_barcode_aux as2 S2 rnd2 D2 max_r m2 p Q2 N2 HM Hp Cs2 Ds2 out2 E2 d H2).
Qed.

Theorem union_zero : forall as0 as1 as2 rnd0 rnd1 rnd2 l dim pc Dist Dist0 D1 D2 M m m1 m2 div ov p, sound_call as0 rnd0 dim pc Dist M m div ov p -> sorts as1 -> sorts as2 -> square D1 -> square D2 ->
  (forall u v, (u < v < length D1)%nat -> 0 <= dist D1 u v) -> (forall u v, (u < v < length D2)%nat -> 0 <= dist D2 u v) -> 0 < M -> symmetric Dist -> reordered l Dist Dist0 -> far_parts M Dist0 D1 D2 ->
  forall S P H0 Hs Cs1 Ds1 out1 Cs2 Ds2 out2, create_MV_ss as0 rnd0 (fun x => x) dim pc Dist M m div ov p = Ok (S, P, H0 :: Hs) ->
  local_homology as1 rnd1 D1 M m1 p = Ok (Cs1, Ds1, out1) -> local_homology as2 rnd2 D2 M m2 p = Ok (Cs2, Ds2, out2) ->
  Permutation (b_bars H0) (b_bars (nth 0 (ph_hom out1) empty_basis) ++ b_bars (nth 0 (ph_hom out2) empty_basis)).
Proof.
  intros as0 as1 as2 rnd0 rnd1 rnd2 l dim pc Dist Dist0 D1 D2 M m m1 m2 div ov p C S1 S2 Q1 Q2 N1 N2 HM HS HR HF S P H0 Hs Cs1 Ds1 out1 Cs2 Ds2 out2 E E1 E2.
  pose proof (cc_prime _ _ _ _ _ _ _ _ _ (sc_cloud _ _ _ _ _ _ _ _ _ _ C)) as Hp. destruct (sound_zero _ _ _ _ _ _ _ _ _ _ C _ _ _ E) as (a & b & X & B). injection X as <- <-.
  apply (union_bars p M l Dist Dist0 D1 D2 0); auto.
  - exact (C26_barcode_aux as1 S1 rnd1 D1 M m1 p Q1 N1 HM Hp Cs1 Ds1 out1 E1 0%nat ltac:(lia)).
  - exact (C26_barcode_aux as2 S2 rnd2 D2 M m2 p Q2 N2 HM Hp Cs2 Ds2 out2 E2 0%nat ltac:(lia)).
Qed.

Theorem union_cover : forall as0 as1 as2 rnd0 rnd1 rnd2 l dim pc Dist Dist0 D1 D2 M m m1 m2 div ov p, sound_call as0 rnd0 dim pc Dist M m div ov p -> simple_cover dim pc Dist M m div ov p -> sorts as1 -> sorts as2 -> square D1 -> square D2 ->
  (forall u v, (u < v < length D1)%nat -> 0 <= dist D1 u v) -> (forall u v, (u < v < length D2)%nat -> 0 <= dist D2 u v) -> 0 < M -> symmetric Dist -> reordered l Dist Dist0 -> far_parts M Dist0 D1 D2 ->
  forall S P Hs Cs1 Ds1 out1 Cs2 Ds2 out2, create_MV_ss as0 rnd0 (fun x => x) dim pc Dist M m div ov p = Ok (S, P, Hs) ->
  local_homology as1 rnd1 D1 M m1 p = Ok (Cs1, Ds1, out1) -> local_homology as2 rnd2 D2 M m2 p = Ok (Cs2, Ds2, out2) ->
  exists H0 O, Hs = results H0 O /\ length O = (Z.to_nat m - 1)%nat /\
    forall d, (d < Z.to_nat m)%nat -> (d < Z.to_nat (Z.max 1 m1))%nat -> (d < Z.to_nat (Z.max 1 m2))%nat ->
    Permutation (bars_in H0 O d) (b_bars (nth d (ph_hom out1) empty_basis) ++ b_bars (nth d (ph_hom out2) empty_basis)).
Proof.
  intros as0 as1 as2 rnd0 rnd1 rnd2 l dim pc Dist Dist0 D1 D2 M m m1 m2 div ov p C K S1 S2 Q1 Q2 N1 N2 HM HS HR HF S P Hs Cs1 Ds1 out1 Cs2 Ds2 out2 E E1 E2.
  pose proof (cc_prime _ _ _ _ _ _ _ _ _ (sc_cloud _ _ _ _ _ _ _ _ _ _ C)) as Hp. destruct (sound_simple _ _ _ _ _ _ _ _ _ _ C _ _ _ E K) as (H0 & O & X & Y & B).
  exists H0, O. split; [exact X|]. split; [exact Y|]. intros d G0 G1 G2. apply (union_bars p M l Dist Dist0 D1 D2 d); auto.
  - exact (C26_barcode_aux as1 S1 rnd1 D1 M m1 p Q1 N1 HM Hp Cs1 Ds1 out1 E1 d G1).
  - exact (C26_barcode_aux as2 S2 rnd2 D2 M m2 p Q2 N2 HM Hp Cs2 Ds2 out2 E2 d G2).
Qed.

(** ** Any number of parts *)
Lemma list_barcode p M d : prime p -> forall Dist Ds, far_list M Dist Ds -> forall bs, Forall2 (fun D b => rips_barcode p D M d b) Ds bs -> rips_barcode p Dist M d (concat bs).
Proof.
  intros Hp Dist Ds H. induction H as [D|Dist D D' Ds HF _ IH]; intros bs F.
  - inversion F as [|x b l l' Hb Hn]; subst. inversion Hn; subst. cbn. rewrite app_nil_r. exact Hb.
  - inversion F as [|x b l l' Hb Hn]; subst. cbn. apply (union_barcode p M Dist D D' Hp HF); [exact Hb|apply IH; exact Hn].
Qed.

Theorem union_list : forall p M l Dist Dist0 Ds d bars bs, prime p -> symmetric Dist -> reordered l Dist Dist0 -> far_list M Dist0 Ds ->
  rips_barcode p Dist M d bars -> Forall2 (fun D b => rips_barcode p D M d b) Ds bs -> Permutation bars (concat bs).
Proof.
  intros p M l Dist Dist0 Ds d bars bs Hp HS HR HF HB F. apply (rips_unique p Dist0 M d bars (concat bs) Hp).
  - apply (rips_order p l Dist); assumption.
  - apply (list_barcode p M d Hp Dist0 Ds HF bs F).
Qed.

(** The bars are those which [local_homology] finds, for some arguments that do not matter. *)
Definition computed_bars (p M : Z) (d : nat) (D : list (list Z)) (bars : list (Z * Z)) : Prop :=
  exists as1 rnd m Cs Ds out, sorts as1 /\ square D /\ (forall u v, (u < v < length D)%nat -> 0 <= dist D u v) /\ (d < Z.to_nat (Z.max 1 m))%nat /\
    local_homology as1 rnd D M m p = Ok (Cs, Ds, out) /\ bars = b_bars (nth d (ph_hom out) empty_basis).

Lemma computed_barcode p M d D bars : prime p -> 0 < M -> computed_bars p M d D bars -> rips_barcode p D M d bars.
Proof. intros Hp HM (as1 & rnd & m & Cs & Ds & out & S & Q & N & H & E & ->). exact (C26_barcode_aux as1 S rnd D M m p Q N HM Hp Cs Ds out E d H). Qed.

Theorem union_list_local : forall p M l Dist Dist0 Ds d bars bs, prime p -> 0 < M -> symmetric Dist -> reordered l Dist Dist0 -> far_list M Dist0 Ds ->
  computed_bars p M d Dist bars -> Forall2 (computed_bars p M d) Ds bs -> Permutation bars (concat bs).
Proof.
  intros p M l Dist Dist0 Ds d bars bs Hp HM HS HR HF HB F. apply (union_list p M l Dist Dist0 Ds d bars bs Hp HS HR HF); [apply computed_barcode; assumption|].
  clear -F Hp HM. induction F as [|D b Ds bs H F IH]; constructor; [apply computed_barcode; assumption|exact IH].
Qed.
