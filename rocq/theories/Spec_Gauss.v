(** * Specifications for the linear-algebra layer.

    Elementary notions, independent of the algorithms: reduced matrices,
    products modulo p, spans of columns, linear independence. *)
From Verif Require Import Base.
Local Open Scope Z_scope.

(** All entries lie in [0..p-1]. *)
Definition reduced_vec (p : Z) (v : vec) : Prop := Forall (fun x => 0 <= x < p) v.
Definition reduced_mat (p : Z) (A : mat) : Prop := Forall (reduced_vec p) (cols A).

(** Entry (i,j) of the product of two matrices, [n] = inner dimension. *)
Definition prod_entry (n : nat) (A B : mat) (i j : nat) : Z :=
  Zsum n (fun k => get A i k * get B k j).

(** [v] (length [m]) is a combination modulo p of the first [n] columns of [A]. *)
Definition in_col_span (p : Z) (A : mat) (n m : nat) (v : nat -> Z) : Prop :=
  exists c : nat -> Z, forall i, (i < m)%nat ->
    Zsum n (fun k => c k * get A i k) mod p = v i mod p.

(** Position [i] of [v] holds its last nonzero entry. *)
Definition pivot_at (v : vec) (i : nat) : Prop :=
  (i < length v)%nat /\ vget v i <> 0 /\ forall j, (i < j)%nat -> vget v j = 0.

(** The linear system A x = b modulo p has a solution. *)
Definition solvable (p : Z) (A : mat) (b : nat -> Z) : Prop :=
  exists x : nat -> Z, forall i, (i < nrows A)%nat ->
    Zsum (ncols A) (fun k => get A i k * x k) mod p = b i mod p.

(** Bar [k] of a barcode contains radius [r]. *)
Definition bar_alive (bars : list (Z * Z)) (k : nat) (r : Z) : Prop :=
  (k < length bars)%nat /\ fst (nth k bars (0, 0)) <= r < snd (nth k bars (0, 0)).
