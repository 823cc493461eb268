(** * Bands between the hypercubes of a cloud divided in one direction *)
From Coq Require Import QArith.
From Verif Require Import Base Spec_Simp Spec_Rips Spec_Cover.
Local Open Scope Z_scope.

(** The points whose coordinate in direction [e] is at distance at most [overlap / 2] from [x]. *)
Definition in_band (overlap : Q) (e : nat) (x : Q) (pt : list Q) : Prop := (x - overlap / 2 <= nth e pt 0 <= x + overlap / 2)%Q.

(** The Rips complex at radius [r] of these points. *)
Definition rips_band (Dist : list (list Z)) (pc : list (list Q)) (overlap : Q) (e : nat) (x : Q) (r : Z) (d : nat) (s : list nat) : Prop :=
  rips Dist d r s /\ forall q, In q s -> in_band overlap e x (nth q pc []).

(** It has no homology in positive degrees below [max_dim], at any radius below [max_r]. *)
Definition acyclic_band (p : Z) (Dist : list (list Z)) (max_r max_dim : Z) (pc : list (list Q)) (overlap : Q) (e : nat) (x : Q) : Prop :=
  forall d r c, (1 <= d < Z.to_nat max_dim)%nat -> r < max_r -> s_cycle p (length Dist) (rips_band Dist pc overlap e x r) d c ->
    s_bounds p (length Dist) (rips_band Dist pc overlap e x r) d c.

(** The places where the extent of the cloud in direction [e] is divided into [max_div] equal parts. *)
Definition wall (max_div : Z) (pc : list (list Q)) (e : nat) (x : Q) : Prop :=
  exists lo hi k, least_coord e pc lo /\ largest_coord e pc hi /\ 0 < k < max_div /\ (x == lo + (hi - lo) * inject_Z k / inject_Z max_div)%Q.
