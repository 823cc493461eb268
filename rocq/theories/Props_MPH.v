(** * Property C40: [quotient] and [module_persistence_homology] *)
From Verif Require Import Base Basis_model PH_model IK_model Spec_PH Spec_IK IK_quot IK_props MPH_props.
From Coq Require Import Znumtheory.
Local Open Scope Z_scope.

(** ** [quotient] *)

(** The bars of the quotient are right at every radius: some family [g] of elements of [M] with these bars gives a
    basis of M/N at every radius.  The returned coordinates are the elements of [g] up to [N] at the radii by which
    all of [N] is born, and at all radii for the bars whose death is not a death of [M].  Missing: the coordinates at
    the other radii; see [C40_quotient_refuted]. *)
Theorem C40_quotient_partial : forall rnd p B M N, quot_input rnd p B M N -> (0 < b_dim N)%nat -> (0 < b_dim M)%nat ->
  exists Q, quotient rnd true M N p = Ok Q /\ over Q B /\ exists g,
    (forall r, quotient_basis p (born_span p (b_bars B) (b_bars M) (b_coords M) r) (born_span p (b_bars B) (b_bars N) (b_coords N) r)
       (b_dim Q) g (fun k => living (b_bars Q) r k = true)) /\
    (forall k r, (k < b_dim Q)%nat ->
       (forall x, In x (b_bars N) -> fst x <= r) \/ (forall x, In x (b_bars M) -> snd (nth k (b_bars Q) (0, 0)) <> snd x) ->
       born_span p (b_bars B) (b_bars N) (b_coords N) r (fun i => column (b_coords Q) k i - g k i)).
Proof. exact quot_aux. Qed.
Print Assumptions C40_quotient_partial.

(** For a family with bars, the vectors born by [r] and the vectors alive at [r] have the same combinations. *)
Theorem C40_born_span : forall p B bars M r v, prime p -> ncols M = length bars -> morphism p bars B M ->
  (born_span p B bars M r v <-> span_at p B bars M r v).
Proof. exact born_span_span_at. Qed.
Print Assumptions C40_born_span.

(** Dividing by the zero module returns [M] itself. *)
Theorem C40_quotient_trivial : forall rnd p M N same, b_dim N = 0%nat -> quotient rnd same M N p = Ok M.
Proof. exact quot_trivial_aux. Qed.
Print Assumptions C40_quotient_trivial.

(** Dividing the zero module by a family which is not empty raises. *)
Theorem C40_quotient_of_zero : forall rnd p B M N, quot_input rnd p B M N -> (0 < b_dim N)%nat -> b_dim M = 0%nat ->
  quotient rnd true M N p = Err UnboundLocalError.
Proof. exact quot_zero_aux. Qed.
Print Assumptions C40_quotient_of_zero.

(** The coordinates returned for a bar alive at [r] need not lie in [M] at [r], although [N] is a submodule of [M]. *)
Theorem C40_quotient_refuted : exists rnd p B M N, quot_input rnd p B M N /\ (0 < b_dim N)%nat /\
  (forall r v, born_span p (b_bars B) (b_bars N) (b_coords N) r v -> born_span p (b_bars B) (b_bars M) (b_coords M) r v) /\
  exists Q k r, quotient rnd true M N p = Ok Q /\ living (b_bars Q) r k = true /\
    ~ born_span p (b_bars B) (b_bars M) (b_coords M) r (column (b_coords Q) k).
Proof. exact quot_coords_refuted_aux. Qed.
Print Assumptions C40_quotient_refuted.

Example C40_quotient_case : quot_input (fun x => x) 5 q2B q2M q2N /\
  exists Q, quotient (fun x => x) true q2M q2N 5 = Ok Q /\ b_bars Q = [(0, 10)] /\ b_coords Q = Mat 2 [[1; 0]].
Proof. split; [exact q2_input|]. eexists. split; [vm_compute; reflexivity|]. split; reflexivity. Qed.

(** ** [module_persistence_homology] *)

(** On a complex the function does not fail. *)
Theorem C40_no_failure : forall rnd p D Bs, chain_input rnd p D Bs -> is_complex p D Bs ->
  exists Hom Im Pre, module_persistence_homology rnd D Bs p = Ok (Hom, Im, Pre) /\
    length Hom = length Bs /\ length Im = length Bs /\ length Pre = length Bs.
Proof. exact mph_total_aux. Qed.
Print Assumptions C40_no_failure.

(** On a chain of morphisms which is not a complex the only exception is the one of [C40_quotient_of_zero]. *)
Theorem C40_failure : forall rnd p D Bs, chain_input rnd p D Bs ->
  forall e, module_persistence_homology rnd D Bs p = Err e -> e = UnboundLocalError /\ ~ is_complex p D Bs.
Proof. exact mph_fail_aux. Qed.
Print Assumptions C40_failure.

(** Chains of morphisms are complexes when the products of the matrices vanish wherever the bars meet. *)
Theorem C40_complex : forall rnd p D Bs, chain_input rnd p D Bs ->
  (forall d, (S (S d) < length Bs)%nat -> (0 < b_dim (nth (S (S d)) Bs empty_basis))%nat -> (0 < b_dim (nth (S d) Bs empty_basis))%nat -> (0 < b_dim (nth d Bs empty_basis))%nat ->
     forall i k, (i < b_dim (nth d Bs empty_basis))%nat -> (k < b_dim (nth (S (S d)) Bs empty_basis))%nat ->
     mapply (nth (S d) D (Mat 0 [])) (column (nth (S (S d)) D (Mat 0 [])) k) i mod p = 0 \/
     snd (nth i (b_bars (nth d Bs empty_basis)) (0, 0)) <= fst (nth k (b_bars (nth (S (S d)) Bs empty_basis)) (0, 0))) ->
  is_complex p D Bs.
Proof. exact complex_aux. Qed.
Print Assumptions C40_complex.

(** The bars of the homology are right in every degree which is not a module over a zero module: some family [g] with
    these bars is at every radius a basis of the cycles modulo the boundaries.  The returned coordinates are those of
    [g] up to boundaries once all the generators of the next degree are born.  Missing: the coordinates before; see
    [C40_coordinates_refuted]. *)
Theorem C40_homology_partial : forall rnd p D Bs, chain_input rnd p D Bs ->
  forall Hom Im Pre, module_persistence_homology rnd D Bs p = Ok (Hom, Im, Pre) ->
  forall d, (d < length Bs)%nat -> ~ over_zero Bs d ->
  ((0 < b_dim (nth d Bs empty_basis))%nat -> over (nth d Hom empty_basis) (nth d Bs empty_basis)) /\
  exists g, forall r,
    quotient_basis p (cycles_at p D Bs d r) (bounds_at p D Bs d r) (b_dim (nth d Hom empty_basis)) g
      (fun k => living (b_bars (nth d Hom empty_basis)) r k = true) /\
    ((forall y, In y (b_bars (nth (S d) Bs empty_basis)) -> fst y <= r) -> forall k, (k < b_dim (nth d Hom empty_basis))%nat ->
       bounds_at p D Bs d r (fun i => column (b_coords (nth d Hom empty_basis)) k i - g k i)).
Proof. exact mph_homology_aux. Qed.
Print Assumptions C40_homology_partial.

(** The returned images span the boundaries at every radius. *)
Theorem C40_images : forall rnd p D Bs, chain_input rnd p D Bs ->
  forall Hom Im Pre, module_persistence_homology rnd D Bs p = Ok (Hom, Im, Pre) ->
  forall d r v, (d < length Bs)%nat ->
  bounds_at p D Bs d r v <->
  (if Nat.eqb (b_dim (nth d Im empty_basis)) 0 then null_at p (b_bars (nth d Bs empty_basis)) r v
   else born_span p (b_bars (nth d Bs empty_basis)) (b_bars (nth d Im empty_basis)) (b_coords (nth d Im empty_basis)) r v).
Proof. exact mph_image_aux. Qed.
Print Assumptions C40_images.

(** A module over a zero module is returned as it is. *)
Theorem C40_over_zero : forall rnd p D Bs, chain_input rnd p D Bs ->
  forall Hom Im Pre, module_persistence_homology rnd D Bs p = Ok (Hom, Im, Pre) ->
  forall d, (d < length Bs)%nat -> over_zero Bs d -> nth d Hom empty_basis = nth d Bs empty_basis.
Proof. exact mph_over_zero_aux. Qed.
Print Assumptions C40_over_zero.

(** Its bars are then wrong: the boundaries are not divided out. *)
Theorem C40_over_zero_refuted : exists rnd p D Bs, chain_input rnd p D Bs /\ is_complex p D Bs /\
  exists Hom Im Pre d r, module_persistence_homology rnd D Bs p = Ok (Hom, Im, Pre) /\ (d < length Bs)%nat /\ over_zero Bs d /\
    forall g, ~ quotient_basis p (cycles_at p D Bs d r) (bounds_at p D Bs d r) (b_dim (nth d Hom empty_basis)) g
      (fun k => living (b_bars (nth d Hom empty_basis)) r k = true).
Proof. exact mph_over_zero_refuted_aux. Qed.
Print Assumptions C40_over_zero_refuted.

(** A returned generator need not be a cycle at a radius where its bar is alive. *)
Theorem C40_coordinates_refuted : exists rnd p D Bs, chain_input rnd p D Bs /\ is_complex p D Bs /\
  exists Hom Im Pre d k r, module_persistence_homology rnd D Bs p = Ok (Hom, Im, Pre) /\ (d < length Bs)%nat /\ ~ over_zero Bs d /\
    living (b_bars (nth d Hom empty_basis)) r k = true /\
    ~ cycles_at p D Bs d r (column (b_coords (nth d Hom empty_basis)) k).
Proof. exact mph_coords_refuted_aux. Qed.
Print Assumptions C40_coordinates_refuted.

Example C40_case : chain_input (fun x => x) 5 m1D (map plain m1B) /\ is_complex 5 m1D (map plain m1B) /\
  exists Hom Im Pre, module_persistence_homology (fun x => x) m1D (map plain m1B) 5 = Ok (Hom, Im, Pre) /\
    map b_bars Hom = [[(0, 2); (0, 1)]; [(7, 8)]; []] /\ map b_bars Im = [[(1, 9); (2, 7)]; [(3, 9)]; []].
Proof.
  split; [exact m1_chain|]. split; [exact m1_complex|]. do 3 eexists. split; [vm_compute; reflexivity|]. split; reflexivity.
Qed.
