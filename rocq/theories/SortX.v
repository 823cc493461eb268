(** * SortX: stable sorting of indices and sorted duplicate-free lists (numpy [lexsort], [unique]). *)
From Verif Require Import Base ListX.
From Coq Require Import Sorting.Permutation Sorting.Sorted.

Section Isort.
Context {A : Type} (leb : A -> A -> bool).

(** Insertion before the first element that is not smaller. *)
Fixpoint ins (x : A) (l : list A) : list A :=
  match l with
  | [] => [x]
  | y :: l' => if leb x y then x :: y :: l' else y :: ins x l'
  end.
(** Stable insertion sort. *)
Definition isort (l : list A) : list A := fold_right ins [] l.

Lemma ins_perm x l : Permutation (x :: l) (ins x l).
Proof.
  induction l as [|y l IH]; simpl; auto.
  destruct (leb x y); auto. rewrite perm_swap. constructor. auto.
Qed.

Lemma isort_perm l : Permutation l (isort l).
Proof.
  induction l as [|x l IH]; simpl; auto. rewrite <- ins_perm. auto.
Qed.

Lemma isort_length l : length (isort l) = length l.
Proof. symmetry. apply Permutation_length, isort_perm. Qed.

Lemma isort_In x l : In x (isort l) <-> In x l.
Proof. split; apply Permutation_in; [symmetry|]; apply isort_perm. Qed.

(** Any relation refining [leb] along the input order is respected by the output. *)
Lemma isort_sorted (Rin Rout : A -> A -> Prop) l :
  (forall x y, Rin x y -> leb x y = true -> Rout x y) ->
  (forall x y, Rin x y -> leb x y = false -> Rout y x) ->
  (forall x y z, Rout x y -> Rout y z -> Rout x z) ->
  StronglySorted Rin l -> StronglySorted Rout (isort l).
Proof.
  intros H1 H2 Ht Hs. induction Hs as [|x l Hs IH Hx]; simpl; [constructor|].
  assert (Hx' : Forall (Rin x) (isort l)).
  { rewrite Forall_forall in *. intros y Hy. apply Hx. apply isort_In. auto. }
  clear Hx Hs. induction IH as [|y l' Hs IH Hy]; simpl.
  - repeat constructor.
  - inversion Hx' as [|? ? Hxy Hxl]; subst.
    destruct (leb x y) eqn:E.
    + constructor; [constructor; auto|]. constructor; [auto|].
      rewrite Forall_forall in *. intros z Hz. apply Ht with y; auto.
    + constructor; [apply IH; auto|]. rewrite Forall_forall in *. intros z Hz.
      apply (Permutation_in z (Permutation_sym (ins_perm x l'))) in Hz.
      destruct Hz as [<-|Hz]; auto.
Qed.

Lemma isort_id l : StronglySorted (fun x y => leb x y = true) l -> isort l = l.
Proof.
  intros H. induction H as [|x l Hs IH Hx]; simpl; auto. rewrite IH.
  destruct l as [|y l]; simpl; auto. inversion Hx; subst. rewrite H1. reflexivity.
Qed.
End Isort.

Lemma seq_sorted n s : StronglySorted lt (seq s n).
Proof.
  revert s. induction n as [|n IH]; intros s; simpl; constructor; auto.
  apply Forall_forall. intros x Hx. apply in_seq in Hx. lia.
Qed.

Lemma filter_sorted {A} (R : A -> A -> Prop) f l : StronglySorted R l -> StronglySorted R (filter f l).
Proof.
  intros H. induction H as [|x l Hs IH Hx]; simpl; [constructor|].
  destruct (f x); auto. constructor; auto. rewrite Forall_forall in *. intros y Hy.
  apply filter_In in Hy. apply Hx. tauto.
Qed.

Lemma sorted_map {A B} (f : A -> B) (R : B -> B -> Prop) l :
  StronglySorted (fun x y => R (f x) (f y)) l -> StronglySorted R (map f l).
Proof.
  intros H. induction H as [|x l Hs IH Hx]; simpl; constructor; auto.
  apply Forall_forall. intros y Hy. apply in_map_iff in Hy. destruct Hy as (z & <- & Hz).
  rewrite Forall_forall in Hx. auto.
Qed.

Lemma sorted_weaken {A} (R R' : A -> A -> Prop) l : (forall x y, R x y -> R' x y) ->
  StronglySorted R l -> StronglySorted R' l.
Proof.
  intros HR H. induction H as [|x l Hs IH Hx]; constructor; auto.
  rewrite Forall_forall in *. auto.
Qed.

Lemma sorted_nth {A} (R : A -> A -> Prop) l d : StronglySorted R l ->
  forall i j, i < j < length l -> R (nth i l d) (nth j l d).
Proof.
  intros H. induction H as [|x l Hs IH Hx]; simpl; [intros; lia|].
  intros [|i] [|j] Hij; try lia.
  - rewrite Forall_forall in Hx. apply Hx. apply nth_In. lia.
  - apply IH. lia.
Qed.

Lemma nth_sorted {A} (R : A -> A -> Prop) l d :
  (forall i j, i < j < length l -> R (nth i l d) (nth j l d)) -> StronglySorted R l.
Proof.
  induction l as [|x l IH]; intros H; constructor.
  - apply IH. intros i j Hij. apply (H (S i) (S j)). simpl. lia.
  - apply Forall_forall. intros y Hy. apply In_nth with (d := d) in Hy. destruct Hy as (j & Hj & <-).
    apply (H 0 (S j)). simpl. lia.
Qed.

(** Two strictly sorted lists with the same elements are equal. *)
Lemma sorted_unique {A} (R : A -> A -> Prop) (l l' : list A) :
  (forall x, ~ R x x) -> (forall x y z, R x y -> R y z -> R x z) ->
  StronglySorted R l -> StronglySorted R l' -> (forall x, In x l <-> In x l') -> l = l'.
Proof.
  intros Hirr Htr. revert l'. induction l as [|x l IH]; intros [|y l'] H H' E; auto.
  - destruct (proj2 (E y)); simpl; auto.
  - destruct (proj1 (E x)); simpl; auto.
  - inversion H as [|? ? Hs Hx]; subst. inversion H' as [|? ? Hs' Hy]; subst.
    rewrite Forall_forall in Hx, Hy.
    assert (x = y).
    { destruct (proj1 (E x)) as [|I]; [left; auto|auto|]. destruct (proj2 (E y)) as [|J]; [left; auto|auto|].
      exfalso. apply (Hirr x). apply Htr with y; auto. }
    subst y. f_equal. apply IH; auto. intros z. split; intros Hz.
    + destruct (proj1 (E z)) as [->|]; [right; auto| |auto]. exfalso. apply (Hirr z). auto.
    + destruct (proj2 (E z)) as [->|]; [right; auto| |auto]. exfalso. apply (Hirr z). auto.
Qed.

(** [np.unique] on integers: sorted, without repetitions. *)
Fixpoint uins (x : Z) (l : list Z) : list Z :=
  match l with
  | [] => [x]
  | y :: l' => if (x <? y)%Z then x :: y :: l' else if (x =? y)%Z then y :: l' else y :: uins x l'
  end.
Definition zunique (l : list Z) : list Z := fold_right uins [] l.

Lemma uins_In x y l : In y (uins x l) <-> y = x \/ In y l.
Proof.
  induction l as [|z l IH]; simpl; [intuition|].
  destruct (Z.ltb_spec x z); [simpl; intuition|].
  destruct (Z.eqb_spec x z); simpl; rewrite ?IH; intuition congruence.
Qed.

Lemma zunique_In x l : In x (zunique l) <-> In x l.
Proof. induction l as [|y l IH]; simpl; [reflexivity|]. rewrite uins_In, IH. intuition. Qed.

Lemma uins_sorted x l : StronglySorted Z.lt l -> StronglySorted Z.lt (uins x l).
Proof.
  intros H. induction H as [|y l Hs IH Hy]; simpl; [repeat constructor|].
  destruct (Z.ltb_spec x y).
  - constructor; [constructor; auto|]. constructor; auto. rewrite Forall_forall in *.
    intros z Hz. specialize (Hy z Hz). lia.
  - destruct (Z.eqb_spec x y); [constructor; auto|].
    constructor; auto. rewrite Forall_forall in *. intros z Hz. apply uins_In in Hz.
    destruct Hz as [->|Hz]; auto. lia.
Qed.

Lemma zunique_sorted l : StronglySorted Z.lt (zunique l).
Proof. induction l as [|x l IH]; simpl; [constructor|]. apply uins_sorted; auto. Qed.
