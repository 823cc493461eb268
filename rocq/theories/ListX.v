(** * ListX: list lemmas missing from the standard library. *)
From Verif Require Import Base.

Lemma nth_skipn {A} (l : list A) n k d : nth k (skipn n l) d = nth (n + k) l d.
Proof.
  revert n. induction l as [|x l IH]; intros [|n]; simpl; auto.
  destruct k; reflexivity.
Qed.

Lemma nth_firstn {A} (l : list A) n k d : k < n -> nth k (firstn n l) d = nth k l d.
Proof.
  revert n k. induction l as [|x l IH]; intros [|n] [|k] H; simpl; auto; try lia.
  apply IH. lia.
Qed.

Lemma nth_map {A B} (f : A -> B) l i d d' : i < length l -> nth i (map f l) d' = f (nth i l d).
Proof.
  intros H. rewrite (nth_indep _ d' (f d)) by (rewrite map_length; auto). apply map_nth.
Qed.

Lemma nth_map_seq {B} (f : nat -> B) n i d : i < n -> nth i (map f (seq 0 n)) d = f i.
Proof.
  intros H. rewrite (nth_map f (seq 0 n) i 0 d) by (rewrite seq_length; auto).
  rewrite seq_nth by auto. reflexivity.
Qed.

Lemma memn_In x l : memn x l = true <-> In x l.
Proof.
  unfold memn. rewrite existsb_exists. split.
  - intros (y & Hy & E). apply Nat.eqb_eq in E. subst; auto.
  - intros H. exists x. split; auto. apply Nat.eqb_refl.
Qed.

Lemma memz_In x l : memz x l = true <-> In x l.
Proof.
  unfold memz. rewrite existsb_exists. split.
  - intros (y & Hy & E). apply Z.eqb_eq in E. subst; auto.
  - intros H. exists x. split; auto. apply Z.eqb_refl.
Qed.

Lemma in_range_diff n l k : In k (range_diff n l) <-> k < n /\ ~ In k l.
Proof.
  unfold range_diff. rewrite filter_In, in_seq. rewrite <- memn_In.
  destruct (memn k l); simpl; intuition (auto; try lia; try congruence).
Qed.

Lemma NoDup_range_diff n l : NoDup (range_diff n l).
Proof. apply NoDup_filter. apply seq_NoDup. Qed.

Lemma find_idx_Some {A} (f : A -> bool) l i d : find_idx f l = Some i ->
  i < length l /\ f (nth i l d) = true /\ forall j, j < i -> f (nth j l d) = false.
Proof.
  revert i. induction l as [|x l IH]; simpl; intros i H; [discriminate|].
  destruct (f x) eqn:E.
  - injection H as <-. repeat split; auto; lia.
  - destruct (find_idx f l) as [k|]; simpl in H; [|discriminate]. injection H as <-.
    destruct (IH k eq_refl) as (H1 & H2 & H3). repeat split; auto; try lia.
    intros [|j] Hj; auto. apply H3. lia.
Qed.

Lemma find_idx_None {A} (f : A -> bool) l : find_idx f l = None <-> forall x, In x l -> f x = false.
Proof.
  induction l as [|x l IH]; simpl; [intuition|].
  destruct (f x) eqn:E.
  - split; [discriminate|]. intros H. rewrite H in E by auto. discriminate.
  - destruct (find_idx f l) as [k|]; simpl; split; intros H.
    + discriminate.
    + assert (N : Some k = None) by (apply IH; auto). discriminate.
    + intros y [<-|Hy]; auto. apply IH; auto.
    + reflexivity.
Qed.

Lemma mapM_Ok {A B} (f : A -> res B) l ys : mapM f l = Ok ys ->
  length ys = length l /\ forall i da db, i < length l -> f (nth i l da) = Ok (nth i ys db).
Proof.
  revert ys. induction l as [|x l IH]; simpl; intros ys H.
  - injection H as <-. split; auto. intros; lia.
  - destruct (f x) as [y|] eqn:E; [|discriminate]. simpl in H.
    destruct (mapM f l) as [zs|]; [|discriminate]. simpl in H. injection H as <-.
    destruct (IH zs eq_refl) as [H1 H2]. split; [simpl; lia|].
    intros [|i] da db Hi; auto. apply H2. lia.
Qed.

Lemma mapM_total {A B} (f : A -> res B) l : (forall x, In x l -> exists y, f x = Ok y) -> exists ys, mapM f l = Ok ys.
Proof.
  induction l as [|x l IH]; simpl; intros H; eauto.
  destruct (H x) as [y E]; auto. rewrite E. simpl.
  destruct IH as [ys E']; auto. rewrite E'. simpl. eauto.
Qed.

Lemma list_set_length {A} (l : list A) i x : length (list_set l i x) = length l.
Proof. revert i. induction l as [|y l IH]; intros [|i]; simpl; auto. Qed.

Lemma nth_list_set {A} (l : list A) i x j d :
  nth j (list_set l i x) d = if Nat.eqb j i && Nat.ltb i (length l) then x else nth j l d.
Proof.
  revert i j. induction l as [|y l IH]; intros [|i] [|j]; simpl; auto.
  - rewrite andb_false_r. reflexivity.
  - rewrite IH. reflexivity.
Qed.
