(** * Specification of the whole computation on a point cloud *)
From Coq Require Import QArith.
From Verif Require Import Base Spec_Simp Spec_Rips Spec_Bars.
From Coq Require Import Znumtheory.
Local Open Scope Z_scope.

(** Squared distances between points with integer coordinates. *)
Definition sq_dist (dim : nat) (a b : list Z) : Z := Zsum dim (fun i => (nth i a 0 - nth i b 0) * (nth i a 0 - nth i b 0)).
Definition sq_dists (dim : nat) (pc : list (list Z)) : list (list Z) := map (fun a => map (sq_dist dim a) pc) pc.

(** A call within the documented conditions.  README.rst:108 asks for an overlap above the maximal radius; the filtration below is by
    squared distances, so the square of the overlap has to exceed [max_r]. *)
Record mv_call (dim : nat) (pc : list (list Z)) (max_r max_dim max_div : Z) (overlap : Q) (p : Z) : Prop := {
  call_dim : (0 < dim)%nat;
  call_points : (0 < length pc)%nat;
  call_coords : Forall (fun a => length a = dim) pc;
  call_max_r : 0 < max_r;
  call_max_dim : 0 < max_dim;
  call_div : 0 < max_div;
  call_overlap : (0 < overlap)%Q /\ (inject_Z max_r < overlap * overlap)%Q;
  call_prime : prime p
}.

(** [bars] is the barcode in degree [d] of the Rips filtration of [Dist] up to [max_r]. *)
Definition rips_barcode (p : Z) (Dist : list (list Z)) (max_r : Z) (d : nat) (bars : list (Z * Z)) : Prop :=
  barcode p (fun r => s_cycle p (length Dist) (fun d => rips Dist d r) d) (fun r => s_bounds p (length Dist) (fun d => rips Dist d r) d) max_r bars.
