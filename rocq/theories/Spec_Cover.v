(** * Specification of grids of hypercubes *)
From Verif Require Import Base.
From Coq Require Import QArith.
Local Open Scope Z_scope.

(** [a] is the position of a hypercube of the grid with [div] divisions. *)
Definition in_grid (div a : list Z) : Prop := Forall2 (fun d x => 0 <= x < d) div a.

(** Number of hypercubes, and index of a position in lexicographic order. *)
Fixpoint grid_size (div : list Z) : Z := match div with [] => 1 | d :: ds => d * grid_size ds end.
Fixpoint grid_index (div a : list Z) : Z :=
  match div, a with
  | _ :: ds, x :: xs => x * grid_size ds + grid_index ds xs
  | _, _ => 0
  end.

(** Hypercubes that touch: positions at distance at most one in every coordinate. *)
Definition touch (a b : list Z) : Prop := Forall2 (fun x y => Z.abs (x - y) <= 1) a b.

Definition adjacent (div : list Z) (i j : nat) : Prop :=
  exists a b, in_grid div a /\ in_grid div b /\ touch a b /\ grid_index div a = Z.of_nat i /\ grid_index div b = Z.of_nat j.

(** ** Geometry *)
Local Open Scope Q_scope.

(** The closed hypercube at position [a], enlarged by [overlap/2] on every side. *)
Definition in_cube (mins : list Q) (side overlap : Q) (a : list Z) (pt : list Q) : Prop :=
  length pt = length a /\
  forall d, (d < length a)%nat ->
    let lo := nth d mins 0 + side * inject_Z (nth d a 0%Z) in
    lo - overlap / 2 <= nth d pt 0 <= lo + side + overlap / 2.

(** [m] is the least and [M] the largest [d]-th coordinate of the points. *)
Definition least_coord (d : nat) (pc : list (list Q)) (m : Q) : Prop :=
  (exists pt, In pt pc /\ nth d pt 0 == m) /\ forall pt, In pt pc -> m <= nth d pt 0.
Definition largest_coord (d : nat) (pc : list (list Q)) (m : Q) : Prop :=
  (exists pt, In pt pc /\ nth d pt 0 == m) /\ forall pt, In pt pc -> nth d pt 0 <= m.

(** The cloud has positive extent in every coordinate. *)
Definition thick (dim : nat) (pc : list (list Q)) : Prop :=
  forall d, (d < dim)%nat -> exists p q, In p pc /\ In q pc /\ nth d p 0 < nth d q 0.

Definition rectangular (dim : nat) (pc : list (list Q)) : Prop := forall pt, In pt pc -> length pt = dim.

(** [div] counts the hypercubes of side [side] needed to cover the extent of the cloud: the
    smallest numbers with [max - min <= side * div]; the longest side has [max_div] of them. *)
Record grid_of (max_div : Z) (dim : nat) (pc : list (list Q)) (mins : list Q) (side : Q) (div : list Z) : Prop := {
  go_mins : length mins = dim;
  go_div : length div = dim;
  go_least : forall d, (d < dim)%nat -> least_coord d pc (nth d mins 0);
  go_side : 0 < side;
  go_longest : exists d M, (d < dim)%nat /\ largest_coord d pc M /\ M - nth d mins 0 == side * inject_Z max_div;
  go_within : forall d M, (d < dim)%nat -> largest_coord d pc M -> M - nth d mins 0 <= side * inject_Z max_div;
  go_fits : forall d M, (d < dim)%nat -> largest_coord d pc M ->
    M - nth d mins 0 <= side * inject_Z (nth d div 0%Z) /\ side * inject_Z (nth d div 0%Z - 1) < M - nth d mins 0
}.

(** Squared Euclidean distance. *)
Fixpoint sqdist (p q : list Q) : Q :=
  match p, q with
  | x :: p', y :: q' => (x - y) * (x - y) + sqdist p' q'
  | _, _ => 0
  end.

(** Not all points agree. *)
Definition spread (dim : nat) (pc : list (list Q)) : Prop :=
  exists d p q, (d < dim)%nat /\ In p pc /\ In q pc /\ nth d p 0 < nth d q 0.

(** All points have the same [d]-th coordinate. *)
Definition flat (d : nat) (pc : list (list Q)) : Prop := forall p q, In p pc -> In q pc -> nth d p 0 == nth d q 0.
