(** * Specification: clouds which are made of two parts far from each other.  Nothing here refers to the model. *)
From Verif Require Import Base Spec_Simp.
Local Open Scope Z_scope.

(** The first points of [Dist] are those of [Dist1], the others are those of [Dist2], and points of different parts have a distance of at least [M]. *)
Record far_parts (M : Z) (Dist Dist1 Dist2 : list (list Z)) : Prop := {
  fp_length : length Dist = (length Dist1 + length Dist2)%nat;
  fp_first : forall u v, (u < v < length Dist1)%nat -> dist Dist u v = dist Dist1 u v;
  fp_second : forall u v, (u < v < length Dist2)%nat -> dist Dist (length Dist1 + u) (length Dist1 + v) = dist Dist2 u v;
  fp_far : forall u v, (u < length Dist1)%nat -> (v < length Dist2)%nat -> M <= dist Dist u (length Dist1 + v)
}.

(** The same for any number of parts. *)
Inductive far_list (M : Z) : list (list Z) -> list (list (list Z)) -> Prop :=
| far_one : forall D, far_list M D [D]
| far_more : forall Dist D D' Ds, far_parts M Dist D D' -> far_list M D' Ds -> far_list M Dist (D :: Ds).
