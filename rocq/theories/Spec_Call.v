(** * Specification of a call of [create_MV_ss] on a cloud with given distances *)
From Coq Require Import QArith.
From Verif Require Import Base Spec_PH Spec_Simp Spec_SS Spec_E2 Cover_model Spec_Cover.
From Coq Require Import Znumtheory.
Local Open Scope Z_scope.

(** A cloud of points with [dim] coordinates, and a matrix [Dist] of distances between its points.  The distances are integers, in
    whichever unit is fine enough.  Rounding to some number of digits ([rnd]) keeps the radii of the filtration apart. *)
Record cloud_call (argsort : list Z -> list nat) (rnd : Z -> Z) (dim : nat) (pc : list point) (Dist : list (list Z))
    (max_r max_dim max_div p : Z) : Prop := {
  cc_sorts : sorts argsort;
  cc_square : square Dist;
  cc_nonneg : forall u v, (u < v < length Dist)%nat -> 0 <= dist Dist u v;
  cc_max_r : 0 < max_r;
  cc_max_dim : 0 < max_dim;
  cc_div : 0 < max_div;
  cc_prime : prime p;
  cc_length : length Dist = length pc;
  cc_rect : rectangular dim pc;
  cc_spread : spread dim pc;
  cc_rnd : forall x y, filtration_value Dist max_r x -> filtration_value Dist max_r y -> rnd x <= rnd y -> x <= y
}.
