(** * Specification of cliques, Rips complexes, simplicial boundaries and Rips homology.
    Nothing here refers to the model. *)
From Verif Require Import Base.
From Coq Require Import Sorted Permutation.
Local Open Scope Z_scope.

Definition increasing (s : list nat) : Prop := StronglySorted lt s.

(** [s] is an increasing list of [d+1] vertices below [n], pairwise related by [adj]. *)
Definition clique (n : nat) (adj : nat -> nat -> Prop) (d : nat) (s : list nat) : Prop :=
  length s = S d /\ increasing s /\ (forall v, In v s -> (v < n)%nat) /\
  forall u v, In u s -> In v s -> (u < v)%nat -> adj u v.

(** Distance between two vertices, read in the lower triangle. *)
Definition dist (Dist : list (list Z)) (u v : nat) : Z := nth u (nth v Dist []) 0.

Definition near (Dist : list (list Z)) (max_r : Z) (u v : nat) : Prop := dist Dist u v < max_r.

(** A matrix with enough columns in each row. *)
Definition square (Dist : list (list Z)) : Prop :=
  forall i, (i < length Dist)%nat -> length (nth i Dist []) = length Dist.

(** [x] is the largest distance between two vertices of [s]. *)
Definition diameter (Dist : list (list Z)) (s : list nat) (x : Z) : Prop :=
  (exists u v, In u s /\ In v s /\ (u < v)%nat /\ dist Dist u v = x) /\
  forall u v, In u s -> In v s -> (u < v)%nat -> dist Dist u v <= x.

(** [argsort] returns a permutation of the indices that sorts the values. *)
Definition sorts (argsort : list Z -> list nat) : Prop :=
  forall l, Permutation (argsort l) (seq 0 (length l)) /\
    forall i j, (i < j < length l)%nat -> nth (nth i (argsort l) 0%nat) l 0 <= nth (nth j (argsort l) 0%nat) l 0.

(** [s] without its [k]-th vertex. *)
Definition facet (k : nat) (s : list nat) : list nat := firstn k s ++ skipn (S k) s.

(** The simplices of dimension [d] of a complex with [n0] vertices and levels [Cs]. *)
Definition level (n0 : nat) (Cs : list (list (list nat))) (d : nat) : list (list nat) :=
  match d with O => map (fun v => [v]) (seq 0 n0) | S d' => nth d' Cs [] end.

(** Rows are increasing and have the right length, vertices exist. *)
Definition well_formed (n0 : nat) (Cs : list (list (list nat))) : Prop :=
  forall d s, In s (level n0 Cs d) -> length s = S d /\ increasing s /\ forall v, In v s -> (v < n0)%nat.

(** A simplicial complex: well formed, without repetition, closed under facets. *)
Definition simplicial (n0 : nat) (Cs : list (list (list nat))) : Prop :=
  well_formed n0 Cs /\ (forall d, NoDup (level n0 Cs d)) /\
  forall d s k, In s (level n0 Cs (S d)) -> (k <= S d)%nat -> In (facet k s) (level n0 Cs d).
