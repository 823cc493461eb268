(** * Specification of the example point clouds *)
From Coq Require Import Reals List.
Import ListNotations.
Local Open Scope R_scope.

Definition sum_sq (v : list R) : R := fold_right (fun x s => x * x + s) 0 v.
(** Values of [np.random.rand()]. *)
Definition in_unit (rand : nat -> R) : Prop := forall n, 0 <= rand n < 1.

Definition on_circle (r : R) (v : list R) : Prop := exists x y, v = [x; y] /\ x * x + y * y = r * r.
(** Distance to [c] between [lo] and [hi]. *)
Definition in_annulus (c : R * R) (lo hi : R) (v : list R) : Prop :=
  exists x y, v = [x; y] /\ lo * lo <= (x - fst c) * (x - fst c) + (y - snd c) * (y - snd c) <= hi * hi.
Definition in_open_ball (dim : nat) (r : R) (v : list R) : Prop := length v = dim /\ 0 <= r /\ sum_sq v < r * r.
Definition on_sphere (dim : nat) (r : R) (v : list R) : Prop := length v = dim /\ 0 <= r /\ sum_sq v = r * r.
Definition in_cube (dim : nat) (h : R) (v : list R) : Prop := length v = dim /\ forall x, In x v -> - h <= x < h.
(** Points at distance [r] from the circle of radius [rr] in the plane z = 0. *)
Definition on_torus (r rr : R) (v : list R) : Prop :=
  exists x y z, v = [x; y; z] /\ (sqrt (x * x + y * y) - rr) * (sqrt (x * x + y * y) - rr) + z * z = r * r.
