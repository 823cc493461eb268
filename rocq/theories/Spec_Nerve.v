(** * Covers whose nerve describes them *)
From Coq Require Import QArith.
From Verif Require Import Base Basis_model SS_model Spec_Simp Spec_Rips Spec_SS Spec_Cech.
Local Open Scope Z_scope.

(** Elements of the cover with a common point span a simplex of the nerve. *)
Definition full_nerve (IN : list (list (list nat))) (n0 : nat) (nerve : list (list (list nat))) : Prop :=
  forall n t q, length t = S n -> increasing t -> (forall v, In v t -> (v < n0)%nat /\ In q (ins_of IN 0 v)) -> In t (level n0 nerve n).

(** The elements of the cover and all their intersections have no homology in positive degrees below [max_dim], at any radius below [max_r]. *)
Definition acyclic_cover (p : Z) (Dist : list (list Z)) (max_r max_dim : Z) (IN : list (list (list nat))) (n0 : nat) (nerve : list (list (list nat))) : Prop :=
  forall n k d r c, (k < length (level n0 nerve n))%nat -> (1 <= d < Z.to_nat max_dim)%nat -> r < max_r ->
    s_cycle p (length Dist) (rips_in Dist IN n k r) d c -> s_bounds p (length Dist) (rips_in Dist IN n k r) d c.

(** Some extent of the cloud is more than the overlap times the number of divisions. *)
Definition wide (max_div : Z) (overlap : Q) (dim : nat) (pc : list (list Q)) : Prop :=
  exists d u v, (d < dim)%nat /\ In u pc /\ In v pc /\ (0 < nth d v 0 - nth d u 0)%Q /\ (overlap * inject_Z max_div < nth d v 0 - nth d u 0)%Q.
