(** * Base: results with Python exceptions, numpy-like lists and matrices.

    Shared vocabulary of the model.  Nothing here is specific to PerMaViss. *)
From Coq Require Export List Arith ZArith Lia Bool.
From Coq Require Export ZifyBool ZifyNat.
Export ListNotations.

(** Python exceptions that the modelled code can raise, plus the model's own
    [OutOfFuel], which is proved unreachable wherever fuel is used. *)
Inductive exn :=
| ValueError | RuntimeError | IndexError | ZeroDivisionError | AssertionError
| UnboundLocalError | TypeError | NameError | KeyError | AttributeError | OutOfFuel.

Inductive res (A : Type) := Ok (a : A) | Err (e : exn).
Arguments Ok {A} a.
Arguments Err {A} e.

Definition bind {A B} (m : res A) (f : A -> res B) : res B :=
  match m with Ok a => f a | Err e => Err e end.
Notation "x <- m ;; k" := (bind m (fun x => k)) (at level 61, m at next level, right associativity).
Notation "' pat <- m ;; k" :=
  (bind m (fun x => match x with pat => k end))
  (at level 61, pat pattern, m at next level, right associativity).

(** Sequencing a fallible function over a list, left to right (a Python [for]
    loop that appends one result per iteration). *)
Fixpoint mapM {A B} (f : A -> res B) (l : list A) : res (list B) :=
  match l with
  | [] => Ok []
  | x :: xs => y <- f x ;; ys <- mapM f xs ;; Ok (y :: ys)
  end.

(** A Python [for] loop updating a state. *)
Fixpoint foldM {A S} (f : S -> A -> res S) (l : list A) (s : S) : res S :=
  match l with
  | [] => Ok s
  | x :: xs => s' <- f s x ;; foldM f xs s'
  end.

Definition vec := list Z.

(** Entry of a 1-D array; [0] outside, but every use in the model is in range
    or guarded by an explicit [IndexError]. *)
Definition vget (v : vec) (i : nat) : Z := nth i v 0%Z.

(** Elementwise binary operation on arrays of the same shape. *)
Fixpoint zipw {A B C} (f : A -> B -> C) (u : list A) (v : list B) : list C :=
  match u, v with
  | a :: u', b :: v' => f a b :: zipw f u' v'
  | _, _ => []
  end.

Definition vscale (c : Z) (v : vec) : vec := map (Z.mul c) v.
Definition vadd (u v : vec) : vec := zipw Z.add u v.
Definition vmod (v : vec) (p : Z) : vec := map (fun x => (x mod p)%Z) v.
Definition vzero (n : nat) : vec := repeat 0%Z n.
(** Row/column [k] of [np.identity(n)]. *)
Definition vunit (n k : nat) : vec := map (fun i => if Nat.eqb i k then 1%Z else 0%Z) (seq 0 n).
(** [np.any(v)] *)
Definition vany (v : vec) : bool := existsb (fun x => negb (Z.eqb x 0)) v.

(** 2-D numpy arrays, stored column-major with an explicit number of rows so
    that shapes n x 0 and 0 x n are distinguished. *)
Record mat := Mat { nrows : nat; cols : list vec }.
Definition ncols (A : mat) : nat := length (cols A).
Definition col (A : mat) (j : nat) : vec := nth j (cols A) [].
Definition get (A : mat) (i j : nat) : Z := vget (col A j) i.
(** Every column has the declared number of rows. *)
Definition wf_mat (A : mat) : Prop := Forall (fun c => length c = nrows A) (cols A).

(** [A[:, j]] with Python's bounds check. *)
Definition col_err (A : mat) (j : nat) : res vec :=
  if Nat.ltb j (ncols A) then Ok (col A j) else Err IndexError.

(** [A[rows]]: select rows, in the given order. *)
Definition take_rows (A : mat) (rows : list nat) : mat :=
  Mat (length rows) (map (fun c => map (vget c) rows) (cols A)).
(** [A[:, js]]: select columns, in the given order. *)
Definition take_cols (A : mat) (js : list nat) : mat :=
  Mat (nrows A) (map (col A) js).
(** Transpose. *)
Definition mtr (A : mat) : mat :=
  Mat (ncols A) (map (fun i => map (fun c => vget c i) (cols A)) (seq 0 (nrows A))).
Definition mzero (m n : nat) : mat := Mat m (repeat (vzero m) n).
Definition mident (n : nat) : mat := Mat n (map (vunit n) (seq 0 n)).
Definition mmod (A : mat) (p : Z) : mat := Mat (nrows A) (map (fun c => vmod c p) (cols A)).
(** [np.append(A, B, axis=1)] *)
Definition mappend (A B : mat) : mat := Mat (nrows A) (cols A ++ cols B).

(** Finite sum [f 0 + ... + f (n-1)]. *)
Fixpoint Zsum (n : nat) (f : nat -> Z) : Z :=
  match n with O => 0%Z | S m => (Zsum m f + f m)%Z end.

(** [np.matmul(A, v)] for a vector [v] and [np.matmul(A, B)]. *)
Definition mvmul (A : mat) (v : vec) : vec :=
  map (fun i => Zsum (ncols A) (fun k => (get A i k * vget v k)%Z)) (seq 0 (nrows A)).
Definition mmul (A B : mat) : mat := Mat (nrows A) (map (mvmul A) (cols B)).

(** Position of the first element satisfying [f]. *)
Fixpoint find_idx {A} (f : A -> bool) (l : list A) : option nat :=
  match l with
  | [] => None
  | x :: xs => if f x then Some 0 else option_map S (find_idx f xs)
  end.

Definition memn (x : nat) (l : list nat) : bool := existsb (Nat.eqb x) l.
Definition memz (x : Z) (l : list Z) : bool := existsb (Z.eqb x) l.

(** [np.setdiff1d(range(n), l)]: increasing list of the numbers below [n] not in [l]. *)
Definition range_diff (n : nat) (l : list nat) : list nat :=
  filter (fun k => negb (memn k l)) (seq 0 n).

(** Boolean mask indexing [l[mask]]. *)
Fixpoint mask_filter {A} (mask : list bool) (l : list A) : list A :=
  match mask, l with
  | true :: m, x :: xs => x :: mask_filter m xs
  | false :: m, _ :: xs => mask_filter m xs
  | _, _ => []
  end.

(** Fancy indexing [l[idx]]. *)
Definition take {A} (d : A) (l : list A) (idx : list nat) : list A := map (fun i => nth i l d) idx.

(** Replace the element at position [i]. *)
Fixpoint list_set {A} (l : list A) (i : nat) (x : A) : list A :=
  match l, i with
  | [], _ => []
  | _ :: l', O => x :: l'
  | y :: l', S i' => y :: list_set l' i' x
  end.
