(** * Specification of farthest point sampling *)
From Verif Require Import Base.
Local Open Scope Z_scope.

(** A matrix of distances between [n] points. *)
Definition distances (n : nat) (D : mat) : Prop :=
  (forall i j, (i < n)%nat -> (j < n)%nat -> 0 <= get D i j) /\ (forall i, (i < n)%nat -> get D i i = 0).

(** The distance from [a] to the set [taken] is at most that from [b]. *)
Definition no_farther (D : mat) (taken : list nat) (a b : nat) : Prop :=
  exists t, In t taken /\ forall t', In t' taken -> get D a t <= get D b t'.

(** Every element after the first is as far as possible from the set of those before it. *)
Definition farthest_first (n : nat) (D : mat) (idx : list nat) : Prop :=
  forall i, (0 < i < length idx)%nat ->
  forall j, (j < n)%nat -> ~ In j (firstn i idx) -> no_farther D (firstn i idx) j (nth i idx 0%nat).
