(** * Specification: counting cells.  Nothing here refers to the model. *)
From Verif Require Import Base Spec_Simp Spec_PH Spec_Rips.
Local Open Scope Z_scope.

(** Number of cells of degree [d] present at radius [r]. *)
Definition cells_at (R : list (list Z)) (d : nat) (r : Z) : nat := length (filter (fun x => x <=? r) (nth d R [])).

(** Number of bars born by [r]. *)
Definition born (r : Z) (bars : list (Z * Z)) : nat := length (filter (fun b => fst b <=? r) bars).

(** [f 0 - f 1 + f 2 - ...], up to the degree [n]. *)
Definition alternating (n : nat) (f : nat -> nat) : Z := Zsum (S n) (fun d => (-1) ^ Z.of_nat d * Z.of_nat (f d)).

(** [N] is the number of simplices of dimension [d] of the Rips complex at radius [r]. *)
Definition simplex_count (Dist : list (list Z)) (r : Z) (d N : nat) : Prop :=
  exists l, NoDup l /\ (forall s, In s l <-> rips Dist d r s) /\ N = length l.
