(** * Specification of persistent homology of a filtered complex.

    A filtered complex is given by boundary matrices [Ds] ([nth (d-1) Ds] is the
    boundary from degree [d] to degree [d-1]) and radii [R] ([nth d R] are the
    birth radii of the cells of degree [d]).  Chains are functions [nat -> Z]
    read modulo p. *)
From Verif Require Import Base.
From Coq Require Import Znumtheory.
Local Open Scope Z_scope.

Definition csize (R : list (list Z)) (d : nat) : nat := length (nth d R []).
Definition crad (R : list (list Z)) (d i : nat) : Z := nth i (nth d R []) 0.

(** Boundary matrix entry from cell [j] of degree [d] to cell [i] of degree [d-1]. *)
Definition bd_entry (Ds : list mat) (d i j : nat) : Z :=
  match d with O => 0 | S d' => get (nth d' Ds (Mat 0 [])) i j end.

Definition bd_of (Ds : list mat) (R : list (list Z)) (d : nat) (w : nat -> Z) (i : nat) : Z :=
  Zsum (csize R d) (fun j => bd_entry Ds d i j * w j).

(** Chains of degree [d] of the subcomplex at radius [r]. *)
Definition chain_at (p : Z) (R : list (list Z)) (d : nat) (r : Z) (v : nat -> Z) : Prop :=
  forall i, v i mod p <> 0 -> (i < csize R d)%nat /\ crad R d i <= r.

Definition cycle_at (p : Z) Ds R (d : nat) (r : Z) (v : nat -> Z) : Prop :=
  chain_at p R d r v /\ forall i, bd_of Ds R d v i mod p = 0.

Definition bounds_at (p : Z) Ds R (d : nat) (r : Z) (v : nat -> Z) : Prop :=
  exists w, chain_at p R (S d) r w /\ forall i, bd_of Ds R (S d) w i mod p = v i mod p.

(** Input accepted by [persistent_homology]: a filtered chain complex over Z/p. *)
Record valid_complex (p max_rad : Z) (n0 : nat) (Ds : list mat) (R : list (list Z)) : Prop := {
  vc_len : length R = S (length Ds);
  vc_top : (0 < length Ds)%nat;
  vc_n0 : csize R 0 = n0;
  vc_wf : forall d, (d < length Ds)%nat -> wf_mat (nth d Ds (Mat 0 []));
  vc_red : forall d i j, (d < length Ds)%nat -> 0 <= get (nth d Ds (Mat 0 [])) i j < p;
  vc_ncols : forall d, (d < length Ds)%nat -> ncols (nth d Ds (Mat 0 [])) = csize R (S d);
  vc_nrows : forall d, (d < length Ds)%nat -> nrows (nth d Ds (Mat 0 [])) = csize R d;
  vc_empty : forall d, (d < length Ds)%nat -> csize R d = 0%nat -> csize R (S d) = 0%nat;
  vc_square : forall d i j, (j < csize R (S (S d)))%nat ->
    Zsum (csize R (S d)) (fun k => bd_entry Ds (S d) i k * bd_entry Ds (S (S d)) k j) mod p = 0;
  vc_sorted : forall d i j, (i <= j < csize R d)%nat -> crad R d i <= crad R d j;
  vc_max : forall d i, (i < csize R d)%nat -> crad R d i < max_rad;
  vc_zero : forall i, (i < csize R 0)%nat -> crad R 0 i = 0;
  vc_face : forall d i j, (j < csize R (S d))%nat -> bd_entry Ds (S d) i j <> 0 -> crad R d i <= crad R (S d) j
}.

(** The functions [g k] with [alive k] represent a basis of the quotient of [Zs] by [Bs], modulo p. *)
Definition quotient_basis {X : Type} (p : Z) (Zs Bs : (X -> Z) -> Prop) (n : nat) (g : nat -> X -> Z)
    (alive : nat -> Prop) : Prop :=
  (forall k, (k < n)%nat -> alive k -> Zs (g k)) /\
  (forall v, Zs v -> exists c : nat -> Z,
     (forall k, ~ alive k -> c k = 0) /\
     Bs (fun i => v i - Zsum n (fun k => c k * g k i))) /\
  (forall c : nat -> Z, (forall k, ~ alive k -> c k = 0) ->
     Bs (fun i => Zsum n (fun k => c k * g k i)) ->
     forall k, (k < n)%nat -> c k mod p = 0).

(** The chains [g k] with [alive k] represent a basis of the homology at radius [r]. *)
Definition homology_basis (p : Z) Ds R (d : nat) (r : Z) (n : nat) (g : nat -> nat -> Z)
    (alive : nat -> Prop) : Prop :=
  quotient_basis p (cycle_at p Ds R d r) (bounds_at p Ds R d r) n g alive.

(** [n] is the dimension over Z/p of the space [S] of chains. *)
Definition has_dim {X : Type} (p : Z) (S : (X -> Z) -> Prop) (n : nat) : Prop :=
  exists b : nat -> X -> Z,
    (forall k, (k < n)%nat -> S (b k)) /\
    (forall v, S v -> exists c : nat -> Z, forall i, v i mod p = Zsum n (fun k => c k * b k i) mod p) /\
    (forall c : nat -> Z, (forall i, Zsum n (fun k => c k * b k i) mod p = 0) ->
       forall k, (k < n)%nat -> c k mod p = 0).

(** Number of bars satisfying [f]. *)
Definition count_bars (f : Z * Z -> bool) (bars : list (Z * Z)) : nat := length (filter f bars).

(** The bar is born by [r] and lives beyond [s]. *)
Definition spans (r s : Z) (b : Z * Z) : bool := (fst b <=? r) && (s <? snd b).

(** Reading the parallel lists of bars and coordinate columns of a basis. *)
Definition bbirth (bars : list (Z * Z)) (k : nat) : Z := fst (nth k bars (0, 0)).
Definition bdeath (bars : list (Z * Z)) (k : nat) : Z := snd (nth k bars (0, 0)).
Definition colv (A : mat) (k : nat) : nat -> Z := fun i => get A i k.
