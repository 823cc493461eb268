(** * List and loop lemmas for the simplicial complexes *)
From Verif Require Import Base ListX SortX PH_model Simp_model Spec_Simp.
From Coq Require Import Sorted Permutation.
Local Open Scope Z_scope.

Lemma mapM_pure {A B} (f : A -> res B) (g : A -> B) l :
  (forall x, In x l -> f x = Ok (g x)) -> mapM f l = Ok (map g l).
Proof.
  induction l as [|x l IH]; simpl; intros H; auto.
  rewrite H by auto. simpl. rewrite IH by auto. reflexivity.
Qed.

Lemma flat_mapM_pure {A B} (f : A -> res (list B)) (g : A -> list B) l :
  (forall x, In x l -> f x = Ok (g x)) -> flat_mapM f l = Ok (flat_map g l).
Proof.
  intros H. unfold flat_mapM. rewrite (mapM_pure f g) by auto. simpl. rewrite flat_map_concat_map. reflexivity.
Qed.

Lemma foldM_pure {A S} (f : S -> A -> res S) (g : S -> A -> S) l s :
  (forall s x, In x l -> f s x = Ok (g s x)) -> foldM f l s = Ok (fold_left g l s).
Proof.
  revert s. induction l as [|x l IH]; simpl; intros s H; auto.
  rewrite H by auto. simpl. apply IH. auto.
Qed.

Lemma nth_err_nth {A} (l : list A) i d : (i < length l)%nat -> nth_err l i = Ok (nth i l d).
Proof.
  intros H. unfold nth_err. rewrite (nth_error_nth' l d H). reflexivity.
Qed.

Lemma take_err_pure {A} (l : list A) idx d : (forall i, In i idx -> (i < length l)%nat) ->
  take_err l idx = Ok (map (fun i => nth i l d) idx).
Proof. intros H. apply mapM_pure. intros i Hi. apply nth_err_nth. auto. Qed.

Lemma map_nth_seq {A} (l : list A) d : map (fun i => nth i l d) (seq 0 (length l)) = l.
Proof.
  apply (nth_ext _ _ d d); [now rewrite map_length, seq_length|].
  intros i Hi. rewrite map_length, seq_length in Hi. rewrite nth_map_seq; auto.
Qed.

Lemma NoDup_app_disj {A} (l l' : list A) : NoDup l -> NoDup l' -> (forall x, In x l -> ~ In x l') -> NoDup (l ++ l').
Proof.
  induction l as [|x l IH]; simpl; intros H H' D; auto.
  inversion H; subst. constructor.
  - rewrite in_app_iff. intros [K|K]; [tauto|]. apply (D x); auto.
  - apply IH; auto.
Qed.

Lemma NoDup_flat_map {A B} (f : A -> list B) l : NoDup l ->
  (forall x, In x l -> NoDup (f x)) ->
  (forall x y z, In x l -> In y l -> In z (f x) -> In z (f y) -> x = y) -> NoDup (flat_map f l).
Proof.
  induction l as [|x l IH]; simpl; intros H Hf D; [constructor|].
  inversion H; subst. apply NoDup_app_disj; auto.
  - apply IH; auto. intros a b z Ha Hb. apply D; auto.
  - intros z Hz K. apply in_flat_map in K. destruct K as (y & Hy & Hz').
    assert (x = y) by (apply (D x y z); auto). subst. auto.
Qed.

Lemma NoDup_map_on {A B} (f : A -> B) l : NoDup l ->
  (forall x y, In x l -> In y l -> f x = f y -> x = y) -> NoDup (map f l).
Proof.
  induction l as [|x l IH]; simpl; intros H Hf; [constructor|].
  inversion H; subst. constructor.
  - intros K. apply in_map_iff in K. destruct K as (y & E & Hy).
    assert (y = x) by (apply Hf; auto). subst. auto.
  - apply IH; auto.
Qed.

Lemma in_fst {A B} (l : list (A * B)) a : In a (map fst l) <-> exists b, In (a, b) l.
Proof.
  rewrite in_map_iff. split.
  - intros ([x b] & <- & H). eauto.
  - intros (b & H). exists (a, b). auto.
Qed.

Lemma isort_nat_sorted l : StronglySorted le (isort Nat.leb l).
Proof.
  apply (isort_sorted Nat.leb (fun _ _ => True)).
  - intros x y _ H. apply Nat.leb_le in H. auto.
  - intros x y _ H. apply Nat.leb_gt in H. lia.
  - intros; lia.
  - induction l; constructor; auto. apply Forall_forall. auto.
Qed.

Lemma nodup_sorted l : StronglySorted le l -> StronglySorted lt (nodup Nat.eq_dec l).
Proof.
  intros H. induction H as [|x l Hs IH Hx]; simpl; [constructor|].
  destruct (in_dec Nat.eq_dec x l) as [Hi|Hi]; auto.
  constructor; auto. rewrite Forall_forall in *. intros y Hy. apply nodup_In in Hy.
  assert (x <> y) by (intros ->; tauto). specialize (Hx y Hy). lia.
Qed.

Lemma nunique_sorted l : increasing (nunique l).
Proof. apply nodup_sorted, isort_nat_sorted. Qed.

Lemma nunique_In x l : In x (nunique l) <-> In x l.
Proof. unfold nunique. rewrite nodup_In. apply isort_In. Qed.

Lemma increasing_NoDup l : increasing l -> NoDup l.
Proof.
  intros H. induction H as [|x l Hs IH Hx]; constructor; auto.
  intros K. rewrite Forall_forall in Hx. specialize (Hx _ K). lia.
Qed.

Lemma increasing_ext l l' : increasing l -> increasing l' -> (forall x, In x l <-> In x l') -> l = l'.
Proof. apply sorted_unique; intros; lia. Qed.

Lemma nunique_id l : increasing l -> nunique l = l.
Proof. intros H. apply increasing_ext; auto using nunique_sorted. intros x. apply nunique_In. Qed.

Lemma intersect1d_In x a b : In x (intersect1d a b) <-> In x a /\ In x b.
Proof. unfold intersect1d. rewrite filter_In, nunique_In, memn_In. tauto. Qed.

Lemma setdiff1d_In x a b : In x (setdiff1d a b) <-> In x a /\ ~ In x b.
Proof.
  unfold setdiff1d. rewrite filter_In, nunique_In, <- (memn_In x b). destruct (memn x b); simpl; intuition congruence.
Qed.

(** ** Sorting with an oracle *)
Lemma vr_sort_ok {A} (argsort : list Z -> list nat) (l : list (A * Z)) : sorts argsort ->
  exists l', vr_sort argsort l = Ok l' /\ Permutation l l' /\
    StronglySorted Z.le (map snd l').
Proof.
  intros Hs. destruct l as [|[a0 z0] l].
  - exists []. destruct (Hs []) as [Hp _]. unfold vr_sort. simpl in *.
    apply Permutation_sym, Permutation_nil in Hp. rewrite Hp. repeat split; constructor.
  - set (L := (a0, z0) :: l). set (d := (a0, 0)).
    destruct (Hs (map snd L)) as [Hp Hso]. rewrite map_length in Hp, Hso.
    assert (Hin : forall i, In i (argsort (map snd L)) -> (i < length L)%nat).
    { intros i Hi. apply (Permutation_in _ Hp) in Hi. apply in_seq in Hi. lia. }
    exists (map (fun i => nth i L d) (argsort (map snd L))). split; [|split].
    + apply take_err_pure; auto.
    + rewrite <- (map_nth_seq L d) at 1. apply Permutation_map. symmetry. exact Hp.
    + apply (nth_sorted _ _ 0). intros i j Hij. rewrite !map_length in Hij.
      assert (HL : length (argsort (map snd L)) = length L)
        by (rewrite (Permutation_length Hp), seq_length; reflexivity).
      rewrite map_map.
      rewrite (nth_map (fun x => snd (nth x L d)) _ i 0%nat) by lia.
      rewrite (nth_map (fun x => snd (nth x L d)) _ j 0%nat) by lia.
      rewrite <- !(map_nth snd L d).
      specialize (Hso i j ltac:(lia)). exact Hso.
Qed.
