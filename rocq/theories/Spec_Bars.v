(** * Specification of barcodes

    A filtered quotient is given by spaces [Zs r] ("cycles at the radius [r]") and [Bs r] ("boundaries at the radius
    [r]") of functions [X -> Z] read modulo [p].  Nothing here refers to a computation. *)
From Verif Require Import Base Spec_PH.
Local Open Scope Z_scope.

(** Closed under linear combinations modulo [p]. *)
Definition subspace {X : Type} (p : Z) (S : (X -> Z) -> Prop) : Prop :=
  forall n (c : nat -> Z) (b : nat -> X -> Z) v, (forall k, (k < n)%nat -> S (b k)) ->
    (forall i, v i mod p = Zsum n (fun k => c k * b k i) mod p) -> S v.

(** [bars] is the barcode below [M]: the bars are intervals, and for [r <= s] the image of [Zs r] in the quotient by [Bs s]
    has as dimension the number of the bars which are born by [r] and live beyond [s]. *)
Definition barcode {X : Type} (p : Z) (Zs Bs : Z -> (X -> Z) -> Prop) (M : Z) (bars : list (Z * Z)) : Prop :=
  (forall x, In x bars -> fst x < snd x <= M) /\
  forall r s, r <= s < M -> exists g,
    quotient_basis p (Zs r) (Bs s) (count_bars (spans r s) bars) g (fun _ => True).

(** [g] is a family with these bars: those alive are a basis of the quotient, those dead are zero in it. *)
Definition persistent_basis {X : Type} (p : Z) (Zs Bs : Z -> (X -> Z) -> Prop) (M : Z) (bars : list (Z * Z)) (g : nat -> X -> Z) : Prop :=
  (forall x, In x bars -> fst x < snd x <= M) /\
  (forall r, r < M -> quotient_basis p (Zs r) (Bs r) (length bars) g (fun k => bbirth bars k <= r < bdeath bars k)) /\
  (forall r k, r < M -> (k < length bars)%nat -> bdeath bars k <= r -> Bs r (g k)).

(** For persistence modules given by bars: the vector has no entry at a generator which is born after [r]. *)
Definition born_by (p : Z) (B : list (Z * Z)) (r : Z) (v : nat -> Z) : Prop :=
  forall i, (i < length B)%nat -> r < fst (nth i B (0, 0)) -> v i mod p = 0.

(** The vectors of the module with the bars [B] which belong to [S] at the radius [r]. *)
Definition within (p : Z) (B : list (Z * Z)) (S : Z -> (nat -> Z) -> Prop) (r : Z) (v : nat -> Z) : Prop :=
  born_by p B r v /\ S r v.
