(** * Covers of which the elements meet at most two at a time *)
From Coq Require Import QArith.
From Verif Require Import Base Basis_model SS_model Spec_Simp Spec_SS.
Local Open Scope Z_scope.

(** A point in two elements of the cover is in no third one, and the two are joined by an edge of the nerve. *)
Definition two_cover (IN : list (list (list nat))) (n0 : nat) (nerve : list (list (list nat))) : Prop :=
  forall q a b, (a < b < n0)%nat -> In q (ins_of IN 0 a) -> In q (ins_of IN 0 b) ->
    In [a; b] (level n0 nerve 1) /\ forall c, (c < n0)%nat -> In q (ins_of IN 0 c) -> c = a \/ c = b.

(** The cloud is long in direction [e]: no other extent exceeds the side of the hypercubes, and the overlap is below that side. *)
Definition elongated (max_div : Z) (overlap : Q) (dim : nat) (pc : list (list Q)) (e : nat) : Prop :=
  (e < dim)%nat /\ exists a b, In a pc /\ In b pc /\ (overlap * inject_Z max_div < nth e b 0 - nth e a 0)%Q /\
  forall f u v, (f < dim)%nat -> f <> e -> In u pc -> In v pc -> ((nth f v 0 - nth f u 0) * inject_Z max_div <= nth e b 0 - nth e a 0)%Q.

(** The list returned by [create_MV_ss]: the result in degree 0 and those in degrees 1, 2, ..., where a degree without classes leaves no entry. *)
Definition results (H0 : basis) (O : list (option basis)) : list basis := H0 :: flat_map (fun o => match o with Some b => [b] | None => [] end) O.
Definition bars_in (H0 : basis) (O : list (option basis)) (d : nat) : list bar :=
  match d with O => b_bars H0 | Datatypes.S d' => match nth d' O None with Some b => b_bars b | None => [] end end.
