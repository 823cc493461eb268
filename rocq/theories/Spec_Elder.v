(** * Specification: extension matrices which continue a bar by older, longer-living ones *)
From Verif Require Import Base Spec_PH.
Local Open Scope Z_scope.

(** A generator in the relation of bar [k] was born no later than [k] and dies after [k]. *)
Definition elder (p : Z) (bars : list (Z * Z)) (E : mat) : Prop :=
  forall i k, (i < length bars)%nat -> (k < length bars)%nat -> get E i k mod p <> 0 -> bbirth bars i <= bbirth bars k /\ bdeath bars k < bdeath bars i.
