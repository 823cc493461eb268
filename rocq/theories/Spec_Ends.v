(** * Specification: where bars begin and end.  Nothing here refers to the model. *)
From Verif Require Import Base Spec_Simp Spec_E2 Spec_Comp.
Local Open Scope Z_scope.

(** All bars begin and end at 0, at a distance between two points or at [M]. *)
Definition at_distances (Dist : list (list Z)) (M : Z) (bars : list (Z * Z)) : Prop :=
  forall b, In b bars -> filtration_value Dist M (fst b) /\ filtration_value Dist M (snd b).

(** All points are within distance [e] of the point [a]. *)
Definition centre (Dist : list (list Z)) (e : Z) (a : nat) : Prop :=
  (a < length Dist)%nat /\ forall v, (v < length Dist)%nat -> v <> a -> edge Dist e a v.

(** Beyond [e] there is nothing but one bar of degree 0, which does not end. *)
Definition ended_by (e M : Z) (d : nat) (bars : list (Z * Z)) : Prop :=
  filter (fun b => e <? snd b) bars = match d with O => [(0, M)] | S _ => [] end.
