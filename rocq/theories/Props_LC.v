(** * Properties C41, C42: local chains *)
From Verif Require Import Base Simp_model Spec_Simp LC_model Spec_LC LC_props.
Local Open Scope Z_scope.

(** ** C41: addition *)
Theorem C41_addition : forall ws A B, good ws A -> good ws B -> exists C, add_chains A B = Ok C /\ good ws C /\
  (forall k g, In g (le_ref (nth k C (LEntry [] LNil))) <->
     In g (le_ref (nth k A (LEntry [] LNil))) \/ In g (le_ref (nth k B (LEntry [] LNil)))) /\
  forall k g j, value C k g j = value A k g j + value B k g j.
Proof. exact add_chains_ok. Qed.
Print Assumptions C41_addition.

(** Two cover elements with 2 and 1 simplices; the chains with references {0,3} and {1,3}, and {2} and {}. *)
Definition lcA : chains := [LEntry [0; 3]%nat (LMat 2 [[1; 2]; [0; 4]]); LEntry [2%nat] (LMat 1 [[1]])].
Definition lcB : chains := [LEntry [1; 3]%nat (LMat 2 [[3; 3]; [1; 1]]); LEntry [] LNil].

Example ex_addition : good [2; 1]%nat lcA /\ good [2; 1]%nat lcB /\
  add_chains lcA lcB = Ok [LEntry [0; 1; 3]%nat (LMat 2 [[1; 2]; [3; 3]; [1; 5]]); LEntry [2%nat] (LMat 1 [[1]])].
Proof. split; [|split; [|reflexivity]]; repeat constructor. Qed.

(** With references that are not increasing the rows go to the wrong references. *)
Theorem C41_unsorted_refuted : exists A B C, add_chains A B = Ok C /\
  (forall k, NoDup (le_ref (nth k A (LEntry [] LNil)))) /\ (forall k, NoDup (le_ref (nth k B (LEntry [] LNil)))) /\
  exists k g j, value C k g j <> value A k g j + value B k g j.
Proof.
  exists [LEntry [1; 0]%nat (LMat 1 [[5]; [7]])], [LEntry [0]%nat (LMat 1 [[0]])], [LEntry [0; 1]%nat (LMat 1 [[5]; [7]])].
  split; [reflexivity|]. split; [|split].
  - intros [|[|k]]; repeat constructor; simpl; intuition discriminate.
  - intros [|[|k]]; repeat constructor; simpl; intuition discriminate.
  - exists 0%nat, 0%nat, 0%nat. discriminate.
Qed.
Print Assumptions C41_unsorted_refuted.

(** ** C42: sums, minus, add_entry, copy_seq *)
Theorem C42_sums : forall ws M c, good ws c -> (forall k g, In g (le_ref (nth k c (LEntry [] LNil))) -> (g < ncols M)%nat) ->
  exists c', sums c M = Ok c' /\ good ws c' /\
  (forall k, le_ref (nth k c' (LEntry [] LNil)) = if Nat.eqb (length (le_ref (nth k c (LEntry [] LNil)))) 0 then [] else seq 0 (nrows M)) /\
  forall k s j, (s < nrows M)%nat -> value c' k s j = Zsum (ncols M) (fun g => get M s g * value c k g j).
Proof. exact sums_ok. Qed.
Print Assumptions C42_sums.

Theorem C42_sums_additive : forall ws M A B C A' B' C', good ws A -> good ws B ->
  (forall k g, In g (le_ref (nth k A (LEntry [] LNil))) -> (g < ncols M)%nat) ->
  (forall k g, In g (le_ref (nth k B (LEntry [] LNil))) -> (g < ncols M)%nat) ->
  add_chains A B = Ok C -> sums A M = Ok A' -> sums B M = Ok B' -> sums C M = Ok C' ->
  forall k s j, (s < nrows M)%nat -> value C' k s j = value A' k s j + value B' k s j.
Proof. exact sums_additive. Qed.
Print Assumptions C42_sums_additive.

Theorem C42_sums_linear : forall ws M1 M2 M a b c c1 c2 c3, good ws c ->
  nrows M1 = nrows M -> nrows M2 = nrows M -> ncols M1 = ncols M -> ncols M2 = ncols M ->
  (forall s g, get M s g = a * get M1 s g + b * get M2 s g) ->
  (forall k g, In g (le_ref (nth k c (LEntry [] LNil))) -> (g < ncols M)%nat) ->
  sums c M1 = Ok c1 -> sums c M2 = Ok c2 -> sums c M = Ok c3 ->
  forall k s j, (s < nrows M)%nat -> value c3 k s j = a * value c1 k s j + b * value c2 k s j.
Proof. exact sums_linear. Qed.
Print Assumptions C42_sums_linear.

(** The two sums [g0 + 2 g3] and [g2 - g3]. *)
Definition lcM : mat := Mat 2 [[1; 0]; [0; 0]; [0; 1]; [2; -1]].
Example ex_sums : good [2; 1]%nat lcA /\ (forall k g, In g (le_ref (nth k lcA (LEntry [] LNil))) -> (g < ncols lcM)%nat) /\
  sums lcA lcM = Ok [LEntry [0; 1]%nat (LMat 2 [[1; 10]; [0; -4]]); LEntry [0; 1]%nat (LMat 1 [[0]; [1]])].
Proof.
  split; [repeat constructor|]. split; [|reflexivity].
  intros [|[|[|k]]] g; simpl; unfold ncols; simpl; intuition lia.
Qed.

Theorem C42_minus : forall ws p c, good ws c -> good ws (minus_chains p c) /\
  (forall k, le_ref (nth k (minus_chains p c) (LEntry [] LNil)) = le_ref (nth k c (LEntry [] LNil))) /\
  forall k g j, value (minus_chains p c) k g j = (- value c k g j) mod p.
Proof. exact minus_ok. Qed.
Print Assumptions C42_minus.

Example ex_minus : minus_chains 5 lcA = [LEntry [0; 3]%nat (LMat 2 [[4; 3]; [0; 1]]); LEntry [2%nat] (LMat 1 [[4]])].
Proof. reflexivity. Qed.

Theorem C42_add_entry : forall c index ref coord, (index < length c)%nat ->
  (length ref <> length (lrows coord) -> add_entry c index ref coord = Err ValueError) /\
  (length ref = length (lrows coord) -> exists c', add_entry c index ref coord = Ok c' /\ length c' = length c /\
     (forall k, k <> index -> nth k c' (LEntry [] LNil) = nth k c (LEntry [] LNil)) /\
     (coord <> LNil -> nth index c' (LEntry [] LNil) = LEntry ref coord) /\ (coord = LNil -> c' = c)).
Proof. exact add_entry_ok. Qed.
Print Assumptions C42_add_entry.

Example ex_add_entry : add_entry lcB 1 [4%nat] (LMat 1 [[2]]) = Ok [LEntry [1; 3]%nat (LMat 2 [[3; 3]; [1; 1]]); LEntry [4%nat] (LMat 1 [[2]])] /\
  add_entry lcB 1 [4%nat] (LMat 1 [[2]; [3]]) = Err ValueError.
Proof. split; reflexivity. Qed.

(** [add_entry] with empty coordinates leaves an earlier entry in place. *)
Theorem C42_add_entry_empty_refuted : exists c index, (index < length c)%nat /\ exists c', add_entry c index [] LNil = Ok c' /\
  nth index c' (LEntry [] LNil) <> LEntry [] LNil.
Proof. exists lcA, 0%nat. split; [simpl; lia|]. exists lcA. split; [reflexivity|discriminate]. Qed.
Print Assumptions C42_add_entry_empty_refuted.

Theorem C42_copy_seq : forall wss cs, Forall2 good wss cs -> copy_seq cs = Ok cs.
Proof. exact copy_seq_ok. Qed.
Print Assumptions C42_copy_seq.

Example ex_copy_seq : Forall2 good [[2; 1]; [2; 1]]%nat [lcA; lcB].
Proof. repeat constructor. Qed.
