(** * Specification: the connected components of the points at a radius.
    Nothing here refers to the model. *)
From Verif Require Import Base Spec_Simp.
Local Open Scope Z_scope.

(** Two points at distance at most [r]. *)
Definition edge (Dist : list (list Z)) (r : Z) (u v : nat) : Prop :=
  (u < v < length Dist)%nat /\ dist Dist u v <= r \/ (v < u < length Dist)%nat /\ dist Dist v u <= r.

(** A path of such pairs. *)
Inductive joined (Dist : list (list Z)) (r : Z) (u : nat) : nat -> Prop :=
| joined_refl : joined Dist r u u
| joined_step v w : joined Dist r u v -> edge Dist r v w -> joined Dist r u w.

(** The list has one point of each component. *)
Definition components (Dist : list (list Z)) (r : Z) (l : list nat) : Prop :=
  NoDup l /\ (forall v, In v l -> (v < length Dist)%nat) /\
  (forall v, (v < length Dist)%nat -> exists u, In u l /\ joined Dist r u v) /\
  forall u v, In u l -> In v l -> joined Dist r u v -> u = v.

(** All bars are born at 0 and, below [M], as many live beyond a radius as there are components at that radius. *)
Definition counts_components (Dist : list (list Z)) (M : Z) (bars : list (Z * Z)) : Prop :=
  (forall b, In b bars -> fst b = 0 /\ 0 < snd b <= M) /\
  forall s l, 0 <= s < M -> components Dist s l -> length (filter (fun b => s <? snd b) bars) = length l.
