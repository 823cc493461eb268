(** * Specification: simplicial homology of the Rips complex of a distance matrix.

    Independent of any enumeration of the simplices: a chain is a function on
    increasing lists of vertices, and its boundary is computed by inserting a
    vertex in every possible way. *)
From Verif Require Import Base Spec_Simp.
Local Open Scope Z_scope.

(** [s] is a [d]-simplex of the Rips complex at radius [r]; vertices are born at 0. *)
Definition rips (Dist : list (list Z)) (d : nat) (r : Z) (s : list nat) : Prop :=
  clique (length Dist) (fun u v => dist Dist u v <= r) d s /\ 0 <= r.

(** The same complex without its simplices of dimension above [m]. *)
Definition rips_upto (m : nat) (Dist : list (list Z)) (d : nat) (r : Z) (s : list nat) : Prop :=
  rips Dist d r s /\ (d <= m)%nat.

(** The increasing list obtained by inserting [v] in [t]. *)
Definition insert_vertex (v : nat) (t : list nat) : list nat :=
  filter (fun u => Nat.ltb u v) t ++ v :: filter (fun u => Nat.ltb v u) t.

(** Coefficient at [t] of the boundary of the chain [c]. *)
Definition simplicial_bd (n : nat) (c : list nat -> Z) (t : list nat) : Z :=
  Zsum n (fun v => if memn v t then 0
                   else (-1) ^ Z.of_nat (length (filter (fun u => Nat.ltb u v) t)) * c (insert_vertex v t)).

(** Chains, cycles and boundaries of a family [K d s] of simplices on [n] vertices, modulo [p]. *)
Definition s_chain (p : Z) (K : nat -> list nat -> Prop) (d : nat) (c : list nat -> Z) : Prop :=
  forall s, c s mod p <> 0 -> K d s.

Definition s_cycle (p : Z) (n : nat) (K : nat -> list nat -> Prop) (d : nat) (c : list nat -> Z) : Prop :=
  s_chain p K d c /\ ((0 < d)%nat -> forall t, increasing t -> length t = d -> simplicial_bd n c t mod p = 0).

Definition s_bounds (p : Z) (n : nat) (K : nat -> list nat -> Prop) (d : nat) (c : list nat -> Z) : Prop :=
  s_chain p K d c /\
  exists w, s_chain p K (S d) w /\
    forall t, increasing t -> length t = S d -> simplicial_bd n w t mod p = c t mod p.

(** The chain on simplices with coefficients [v i] on the [i]-th simplex of the list [L]. *)
Definition on_simplices (L : list (list nat)) (v : nat -> Z) (s : list nat) : Z :=
  Zsum (length L) (fun i => if list_eq_dec Nat.eq_dec (nth i L []) s then v i else 0).
