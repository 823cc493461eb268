(** * Specifications for barcodes: non-trivial bars and the standard barcode order. *)
From Verif Require Import Base.
Local Open Scope Z_scope.

(** A bar that is not empty. *)
Definition nonempty_bar (b : Z * Z) : bool := fst b <? snd b.

(** Bar [i] precedes bar [j] in the standard order, computed on values rounded by [rnd]:
    smaller birth first, then larger death, then original position. *)
Definition standard_before (rnd : Z -> Z) (bars : list (Z * Z)) (i j : nat) : Prop :=
  let a := nth i bars (0, 0) in let b := nth j bars (0, 0) in
  rnd (fst a) < rnd (fst b) \/
  (rnd (fst a) = rnd (fst b) /\ rnd (snd b) < rnd (snd a)) \/
  (rnd (fst a) = rnd (fst b) /\ rnd (snd a) = rnd (snd b) /\ (i < j)%nat).
