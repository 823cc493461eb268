(** * Specification: what happens to bars when distances, the largest radius or the order of the points change.
    Nothing here refers to the model. *)
From Verif Require Import Base Spec_Simp.
From Coq Require Import Permutation.
Local Open Scope Z_scope.

(** The bars which are born before [M], ended at [M] at the latest. *)
Definition cut_bars (M : Z) (bars : list (Z * Z)) : list (Z * Z) :=
  map (fun x => (fst x, Z.min (snd x) M)) (filter (fun x => fst x <? M) bars).

(** The bars after a change [f] of the scale. *)
Definition scale_bars (f : Z -> Z) (bars : list (Z * Z)) : list (Z * Z) := map (fun x => (f (fst x), f (snd x))) bars.

(** A change of scale: increasing on the distances, and 0 stays. *)
Definition scale (f : Z -> Z) : Prop := f 0 = 0 /\ forall x y, 0 <= x -> x < y -> f x < f y.

(** The distances of [Dist'] are those of [Dist] on another scale. *)
Definition rescaled (f : Z -> Z) (Dist Dist' : list (list Z)) : Prop :=
  length Dist' = length Dist /\ forall u v, (u < v < length Dist)%nat -> dist Dist' u v = f (dist Dist u v).

(** The point [i] of [Dist'] is the point [nth i l] of [Dist]. *)
Definition reordered (l : list nat) (Dist Dist' : list (list Z)) : Prop :=
  length Dist' = length Dist /\ Permutation l (seq 0 (length Dist)) /\
  forall u v, (u < v < length Dist)%nat -> dist Dist' u v = dist Dist (nth u l 0%nat) (nth v l 0%nat).

(** The distances do not depend on the order of the two points. *)
Definition symmetric (Dist : list (list Z)) : Prop :=
  forall u v, (u < length Dist)%nat -> (v < length Dist)%nat -> dist Dist u v = dist Dist v u.

(** The point [i] of [Dist'] is the point [nth i l] of [Dist]; every point of [Dist] occurs, maybe several times. *)
Definition repeated (l : list nat) (Dist Dist' : list (list Z)) : Prop :=
  length Dist' = length l /\ (forall v, In v l <-> (v < length Dist)%nat) /\
  forall u v, (u < v < length l)%nat -> dist Dist' u v = dist Dist (nth u l 0%nat) (nth v l 0%nat).
