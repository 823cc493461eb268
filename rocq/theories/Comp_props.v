(** * Degree 0 of the computed bars counts connected components *)
From Coq Require Import QArith Permutation Znumtheory.
From Verif Require Import Base ListX Basis_model PH_model Simp_model SS_model Cover_model HP_model Spec_Simp Simp_props Spec_PH Spec_Rips Spec_Bars Spec_Call Spec_MV
  Bars Rips_bars Spec_Symm Spec_Agree Agree_props MV_props Spec_Comp Rips_comp.
Local Open Scope Z_scope.

Theorem comp_counts p Dist M bars : prime p -> rips_barcode p Dist M 0 bars -> counts_components Dist M bars.
Proof.
  intros Hp HB. split.
  - intros b Hb. pose proof (comp_born p Dist M bars b Hp HB Hb) as E. pose proof (proj1 HB b Hb). lia.
  - intros s l Hs HC. rewrite <- (comp_count p Dist M bars s s l Hp HB ltac:(lia) ltac:(lia) HC). unfold count_bars. f_equal. apply filter_ext_in.
    intros b Hb. unfold spans. rewrite (comp_born p Dist M bars b Hp HB Hb). rewrite (proj2 (Z.leb_le 0 s)) by lia. reflexivity.
Qed.

Theorem comp_local : forall argsort rnd Dist max_r max_dim p, sorts argsort -> square Dist -> (forall u v, (u < v < length Dist)%nat -> 0 <= dist Dist u v) -> 0 < max_r -> prime p ->
  forall Cs Ds out, local_homology argsort rnd Dist max_r max_dim p = Ok (Cs, Ds, out) -> counts_components Dist max_r (b_bars (nth 0 (ph_hom out) empty_basis)).
Proof. intros until p. intros S Q N M Hp Cs Ds out E. apply (comp_counts p); [exact Hp|]. exact (C26_barcode_aux argsort S rnd Dist max_r max_dim p Q N M Hp Cs Ds out E 0%nat ltac:(lia)). Qed.

Theorem comp_cover : forall argsort rnd dim pc Dist max_r max_dim max_div overlap p S P H0 Hs, sound_call argsort rnd dim pc Dist max_r max_dim max_div overlap p ->
  create_MV_ss argsort rnd (fun x => x) dim pc Dist max_r max_dim max_div overlap p = Ok (S, P, H0 :: Hs) -> counts_components Dist max_r (b_bars H0).
Proof.
  intros until Hs. intros C E. destruct (sound_zero _ _ _ _ _ _ _ _ _ _ C _ _ _ E) as (X & X' & EX & B). injection EX as <- <-.
  apply (comp_counts p); [|exact B]. exact (cc_prime _ _ _ _ _ _ _ _ _ (sc_cloud _ _ _ _ _ _ _ _ _ _ C)).
Qed.

Theorem field_local : forall as1 as2 rnd1 rnd2 Dist max_r m1 m2 p q, sorts as1 -> sorts as2 -> square Dist -> (forall u v, (u < v < length Dist)%nat -> 0 <= dist Dist u v) -> 0 < max_r ->
  prime p -> prime q -> forall Cs Ds out Cs' Ds' out', local_homology as1 rnd1 Dist max_r m1 p = Ok (Cs, Ds, out) -> local_homology as2 rnd2 Dist max_r m2 q = Ok (Cs', Ds', out') ->
  Permutation (b_bars (nth 0 (ph_hom out) empty_basis)) (b_bars (nth 0 (ph_hom out') empty_basis)).
Proof.
  intros until q. intros S1 S2 Q N M Hp Hq Cs Ds out Cs' Ds' out' E1 E2. apply (comp_field p q Dist max_r); [exact Hp|exact Hq| |].
  - exact (C26_barcode_aux as1 S1 rnd1 Dist max_r m1 p Q N M Hp Cs Ds out E1 0%nat ltac:(lia)).
  - exact (C26_barcode_aux as2 S2 rnd2 Dist max_r m2 q Q N M Hq Cs' Ds' out' E2 0%nat ltac:(lia)).
Qed.

Theorem field_cover : forall as1 as2 rnd1 rnd2 dim1 dim2 pc1 pc2 Dist M m1 m2 div1 div2 ov1 ov2 p q S P H0 Hs S' P' H0' Hs',
  sound_call as1 rnd1 dim1 pc1 Dist M m1 div1 ov1 p -> sound_call as2 rnd2 dim2 pc2 Dist M m2 div2 ov2 q ->
  create_MV_ss as1 rnd1 (fun x => x) dim1 pc1 Dist M m1 div1 ov1 p = Ok (S, P, H0 :: Hs) ->
  create_MV_ss as2 rnd2 (fun x => x) dim2 pc2 Dist M m2 div2 ov2 q = Ok (S', P', H0' :: Hs') ->
  Permutation (b_bars H0) (b_bars H0').
Proof.
  intros until Hs'. intros C1 C2 E1 E2. destruct (sound_zero _ _ _ _ _ _ _ _ _ _ C1 _ _ _ E1) as (X & X' & EX & B1). injection EX as <- <-.
  destruct (sound_zero _ _ _ _ _ _ _ _ _ _ C2 _ _ _ E2) as (X & X' & EX & B2). injection EX as <- <-. apply (comp_field p q Dist M); [| |exact B1|exact B2].
  - exact (cc_prime _ _ _ _ _ _ _ _ _ (sc_cloud _ _ _ _ _ _ _ _ _ _ C1)).
  - exact (cc_prime _ _ _ _ _ _ _ _ _ (sc_cloud _ _ _ _ _ _ _ _ _ _ C2)).
Qed.

(** ** Degree 1 depends on the prime: a triangulation of the projective plane with eleven vertices, adjacent ones at distance 2 and the others at 4. *)
Definition plane : list (list Z) :=
  map (map (Z.mul 2)) [[0; 1; 1; 1; 1; 1; 2; 2; 2; 2; 1]; [1; 0; 1; 2; 2; 2; 1; 1; 2; 2; 1]; [1; 1; 0; 1; 2; 2; 2; 1; 1; 1; 2]; [1; 2; 1; 0; 1; 2; 2; 2; 1; 2; 2];
   [1; 2; 2; 1; 0; 1; 1; 1; 1; 2; 2]; [1; 2; 2; 2; 1; 0; 2; 1; 2; 1; 1]; [2; 1; 2; 2; 1; 2; 0; 1; 1; 2; 1]; [2; 1; 1; 2; 1; 1; 1; 0; 2; 1; 2];
   [2; 2; 1; 1; 1; 2; 1; 2; 0; 1; 1]; [2; 2; 1; 2; 2; 1; 2; 1; 1; 0; 1]; [1; 1; 2; 2; 2; 1; 1; 2; 1; 1; 0]].

Definition degree_bars (Dist : list (list Z)) (max_r max_dim p : Z) (d : nat) : res (list bar) :=
  match local_homology stable_argsort (fun x => x) Dist max_r max_dim p with Ok (_, _, out) => Ok (b_bars (nth d (ph_hom out) empty_basis)) | Err e => Err e end.

Lemma degree_bars_out Dist max_r max_dim p d bars : degree_bars Dist max_r max_dim p d = Ok bars ->
  exists Cs Ds out, local_homology stable_argsort (fun x => x) Dist max_r max_dim p = Ok (Cs, Ds, out) /\ b_bars (nth d (ph_hom out) empty_basis) = bars.
Proof. unfold degree_bars. destruct (local_homology _ _ _ _ _ _) as [[[Cs Ds] out]|e]; [|discriminate]. intros E. injection E as <-. exists Cs, Ds, out. split; reflexivity. Qed.

Theorem plane_differs : exists Dist max_r max_dim p q, square Dist /\ symmetric Dist /\ (forall u v, (u < v < length Dist)%nat -> 0 <= dist Dist u v) /\ 0 < max_r /\ prime p /\ prime q /\
  exists Cs Ds out Cs' Ds' out', local_homology stable_argsort (fun x => x) Dist max_r max_dim p = Ok (Cs, Ds, out) /\
    local_homology stable_argsort (fun x => x) Dist max_r max_dim q = Ok (Cs', Ds', out') /\
    ~ Permutation (b_bars (nth 1 (ph_hom out) empty_basis)) (b_bars (nth 1 (ph_hom out') empty_basis)).
Proof.
  exists plane, 3, 2, 2, 3. split; [|split; [|split; [|split; [reflexivity|split; [exact prime_2|split; [exact prime_3|]]]]]].
  - intros i H. change (length plane) with 11%nat in *. do 11 (destruct i as [|i]; [reflexivity|]). exfalso; lia.
  - intros u v Hu Hv. change (length plane) with 11%nat in *. do 11 (destruct u as [|u]; [do 11 (destruct v as [|v]; [reflexivity|]); exfalso; lia|]). exfalso; lia.
  - intros u v H. change (length plane) with 11%nat in H. do 11 (destruct v as [|v]; [do 11 (destruct u as [|u]; [first [exfalso; lia|apply Z.leb_le; reflexivity]|]); exfalso; lia|]). exfalso; lia.
  - assert (E2 : degree_bars plane 3 2 2 1 = Ok [(2, 3)]) by (vm_compute; reflexivity). assert (E3 : degree_bars plane 3 2 3 1 = Ok []) by (vm_compute; reflexivity).
    apply degree_bars_out in E2, E3. destruct E2 as (Cs & Ds & out & L & E). destruct E3 as (Cs' & Ds' & out' & L' & E'). exists Cs, Ds, out, Cs', Ds', out'.
    split; [exact L|]. split; [exact L'|]. rewrite E, E'. intros P. apply Permutation_sym, Permutation_nil in P. discriminate P.
Qed.
