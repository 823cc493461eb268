(** * Properties C64 to C67: bars on another scale, up to a smaller radius, for another order of the points and with repeated points *)
From Verif Require Import Base Basis_model PH_model Simp_model Spec_Simp Simp_props Spec_PH Spec_Rips Spec_Bars Spec_MV Spec_Symm IK_props Rips_scale Rips_order Rips_dup Symm_props.
From Coq Require Import Permutation Znumtheory.
Local Open Scope Z_scope.

(** ** C64: on another scale the bars of the local pipeline are the same bars on that scale. *)
Theorem C64_scale : forall as1 as2 rnd1 rnd2 f Dist Dist' max_r max_dim p, sorts as1 -> sorts as2 -> square Dist -> square Dist' ->
  (forall u v, (u < v < length Dist)%nat -> 0 <= dist Dist u v) -> 0 < max_r -> prime p -> scale f -> rescaled f Dist Dist' ->
  forall Cs Ds out Cs' Ds' out', local_homology as1 rnd1 Dist max_r max_dim p = Ok (Cs, Ds, out) -> local_homology as2 rnd2 Dist' (f max_r) max_dim p = Ok (Cs', Ds', out') ->
  forall d, (d < Z.to_nat (Z.max 1 max_dim))%nat -> Permutation (b_bars (nth d (ph_hom out') empty_basis)) (scale_bars f (b_bars (nth d (ph_hom out) empty_basis))).
Proof. exact local_scale_all. Qed.
Print Assumptions C64_scale.

(** The same for the barcode itself, hence for every computation of it. *)
Theorem C64_barcode : forall p f Dist Dist' M d bars, prime p -> scale f -> rescaled f Dist Dist' -> (forall u v, (u < v < length Dist)%nat -> 0 <= dist Dist u v) -> 0 <= M ->
  rips_barcode p Dist M d bars -> rips_barcode p Dist' (f M) d (scale_bars f bars).
Proof. exact rips_scale. Qed.
Print Assumptions C64_barcode.

(** ** C65: up to a smaller radius the bars of the local pipeline are cut off there. *)
Theorem C65_cut : forall as1 as2 rnd1 rnd2 Dist max_r max_r' max_dim p, sorts as1 -> sorts as2 -> square Dist ->
  (forall u v, (u < v < length Dist)%nat -> 0 <= dist Dist u v) -> 0 < max_r' -> max_r' <= max_r -> prime p ->
  forall Cs Ds out Cs' Ds' out', local_homology as1 rnd1 Dist max_r max_dim p = Ok (Cs, Ds, out) -> local_homology as2 rnd2 Dist max_r' max_dim p = Ok (Cs', Ds', out') ->
  forall d, (d < Z.to_nat (Z.max 1 max_dim))%nat -> Permutation (b_bars (nth d (ph_hom out') empty_basis)) (cut_bars max_r' (b_bars (nth d (ph_hom out) empty_basis))).
Proof. exact local_cut_all. Qed.
Print Assumptions C65_cut.

Theorem C65_barcode : forall p Dist M M' d bars, M' <= M -> rips_barcode p Dist M d bars -> rips_barcode p Dist M' d (cut_bars M' bars).
Proof. exact (fun p Dist M M' d bars => @barcode_cut (list nat) p _ _ M M' bars). Qed.
Print Assumptions C65_barcode.

(** ** C66: the bars of the local pipeline do not depend on the order of the points. *)
Theorem C66_order : forall as1 as2 rnd1 rnd2 l Dist Dist' max_r max_dim p, sorts as1 -> sorts as2 -> square Dist -> square Dist' ->
  (forall u v, (u < v < length Dist)%nat -> 0 <= dist Dist u v) -> symmetric Dist -> 0 < max_r -> prime p -> reordered l Dist Dist' ->
  forall Cs Ds out Cs' Ds' out', local_homology as1 rnd1 Dist max_r max_dim p = Ok (Cs, Ds, out) -> local_homology as2 rnd2 Dist' max_r max_dim p = Ok (Cs', Ds', out') ->
  forall d, (d < Z.to_nat (Z.max 1 max_dim))%nat -> Permutation (b_bars (nth d (ph_hom out') empty_basis)) (b_bars (nth d (ph_hom out) empty_basis)).
Proof. exact local_order_all. Qed.
Print Assumptions C66_order.

Theorem C66_barcode : forall p l Dist Dist' M d bars, prime p -> symmetric Dist -> reordered l Dist Dist' -> rips_barcode p Dist M d bars -> rips_barcode p Dist' M d bars.
Proof. exact rips_order. Qed.
Print Assumptions C66_barcode.

(** ** C67: points which occur several times do not change the bars of the local pipeline. *)
Theorem C67_repeat : forall as1 as2 rnd1 rnd2 l Dist Dist' max_r max_dim p, sorts as1 -> sorts as2 -> square Dist -> square Dist' ->
  (forall u v, (u < v < length Dist)%nat -> 0 <= dist Dist u v) -> symmetric Dist -> (forall u, (u < length Dist)%nat -> dist Dist u u = 0) -> 0 < max_r -> prime p -> repeated l Dist Dist' ->
  forall Cs Ds out Cs' Ds' out', local_homology as1 rnd1 Dist max_r max_dim p = Ok (Cs, Ds, out) -> local_homology as2 rnd2 Dist' max_r max_dim p = Ok (Cs', Ds', out') ->
  forall d, (d < Z.to_nat (Z.max 1 max_dim))%nat -> Permutation (b_bars (nth d (ph_hom out') empty_basis)) (b_bars (nth d (ph_hom out) empty_basis)).
Proof. exact local_repeat_all. Qed.
Print Assumptions C67_repeat.

Theorem C67_barcode : forall p l Dist Dist' M d bars, prime p -> symmetric Dist -> (forall u, (u < length Dist)%nat -> dist Dist u u = 0) -> repeated l Dist Dist' ->
  rips_barcode p Dist M d bars -> rips_barcode p Dist' M d bars.
Proof. exact rips_repeat. Qed.
Print Assumptions C67_barcode.

(** The corners of a rectangle with a loop from 4 to 8, with the squares of the distances, up to 6, in another order, and with its third corner twice. *)
Definition rect : list (list Z) := [[0;4;8;4]; [4;0;4;8]; [8;4;0;4]; [4;8;4;0]].
Definition rect_squares : list (list Z) := [[0;16;64;16]; [16;0;16;64]; [64;16;0;16]; [16;64;16;0]].
Definition rect_order : list (list Z) := [[0;8;4;4]; [8;0;4;4]; [4;4;0;8]; [4;4;8;0]].
Definition rect_bars (Dist : list (list Z)) (max_r : Z) (d : nat) : res (list bar) :=
  match local_homology stable_argsort (fun x => x) Dist max_r 2 5 with Ok (_, _, out) => Ok (b_bars (nth d (ph_hom out) empty_basis)) | Err e => Err e end.

Example C64_case : scale (fun x => x * x) /\ rescaled (fun x => x * x) rect rect_squares /\ square rect /\ square rect_squares /\
  rect_bars rect 10 1 = Ok [(4, 8)] /\ rect_bars rect_squares 100 1 = Ok [(16, 64)].
Proof.
  split; [split; [reflexivity|intros x y H1 H2; nia]|]. split.
  - split; [reflexivity|]. intros u v H. change (length rect) with 4%nat in H. do 4 (destruct v as [|v]; [do 4 (destruct u as [|u]; [first [reflexivity | exfalso; lia]|]); exfalso; lia|]). exfalso. lia.
  - split; [|split]; [intros [|[|[|[|i]]]] H; cbn in *; try reflexivity; lia..|]. split; vm_compute; reflexivity.
Qed.

Example C65_case : rect_bars rect 6 1 = Ok [(4, 6)] /\ cut_bars 6 [(4, 8)] = [(4, 6)] /\ rect_bars rect 3 1 = Ok [] /\ cut_bars 3 [(4, 8)] = [].
Proof. repeat split; vm_compute; reflexivity. Qed.

Example C66_case : symmetric rect /\ reordered [0; 2; 1; 3]%nat rect rect_order /\ rect_bars rect_order 10 1 = Ok [(4, 8)].
Proof.
  split; [|split; [split; [reflexivity|split]|]].
  - intros u v Hu Hv. change (length rect) with 4%nat in *. do 4 (destruct u as [|u]; [do 4 (destruct v as [|v]; [reflexivity|]); exfalso; lia|]). exfalso. lia.
  - cbn. apply perm_skip. apply perm_swap.
  - intros u v H. change (length rect) with 4%nat in H. do 4 (destruct v as [|v]; [do 4 (destruct u as [|u]; [first [reflexivity | exfalso; lia]|]); exfalso; lia|]). exfalso. lia.
  - vm_compute. reflexivity.
Qed.

Definition rect_twice : list (list Z) := [[0;4;8;4;8]; [4;0;4;8;4]; [8;4;0;4;0]; [4;8;4;0;4]; [8;4;0;4;0]].
Example C67_case : (forall u, (u < length rect)%nat -> dist rect u u = 0) /\ repeated [0; 1; 2; 3; 2]%nat rect rect_twice /\ square rect_twice /\
  rect_bars rect_twice 10 1 = Ok [(4, 8)] /\ rect_bars rect_twice 10 0 = rect_bars rect 10 0.
Proof.
  split; [intros [|[|[|[|u]]]] H; try reflexivity; cbn in H; lia|]. split; [split; [reflexivity|split]|].
  - intros v. change (length rect) with 4%nat. cbn. lia.
  - intros u v H. change (length [0; 1; 2; 3; 2]%nat) with 5%nat in H. do 5 (destruct v as [|v]; [do 5 (destruct u as [|u]; [first [reflexivity | exfalso; lia]|]); exfalso; lia|]). exfalso. lia.
  - split; [intros [|[|[|[|[|i]]]]] H; cbn in *; try reflexivity; lia|]. split; vm_compute; reflexivity.
Qed.
