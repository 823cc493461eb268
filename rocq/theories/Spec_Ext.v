(** * Specification: persistence modules given by bars and an extension

    A module with one generator per bar.  The generator [k] is born at the birth of its bar; at the death of the bar it
    becomes a combination of the other generators, with the column [k] of the matrix [E] as coefficients.  Nothing here
    refers to a computation. *)
From Verif Require Import Base Spec_PH.
Local Open Scope Z_scope.

(** Combinations of the generators born by [r]. *)
Definition pres_cycle (p : Z) (bars : list (Z * Z)) (r : Z) (v : nat -> Z) : Prop :=
  forall i, v i mod p <> 0 -> (i < length bars)%nat /\ bbirth bars i <= r.

(** Combinations of the relations which hold at [r]: [generator k = sum over i of E i k * generator i] once [k] has died. *)
Definition pres_bounds (p : Z) (bars : list (Z * Z)) (E : mat) (r : Z) (v : nat -> Z) : Prop :=
  exists c : nat -> Z, (forall k, c k mod p <> 0 -> (k < length bars)%nat /\ bdeath bars k <= r) /\
    forall i, v i mod p = Zsum (length bars) (fun k => c k * ((if Nat.eqb i k then 1 else 0) - get E i k)) mod p.

(** A relation only mentions generators already born. *)
Definition pres_valid (p : Z) (bars : list (Z * Z)) (E : mat) : Prop :=
  forall i k, (i < length bars)%nat -> (k < length bars)%nat -> get E i k mod p <> 0 -> bbirth bars i <= bdeath bars k.

(** A generator which appears in another relation is not itself continued when it dies. *)
Definition two_step (p : Z) (bars : list (Z * Z)) (E : mat) : Prop :=
  forall i k l, (i < length bars)%nat -> (k < length bars)%nat -> (l < length bars)%nat ->
    get E i k mod p <> 0 -> get E l i mod p = 0.
