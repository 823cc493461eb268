(** * The boundary matrices compute the simplicial boundary *)
From Verif Require Import Base ListX SortX Lin PH_model Simp_model Spec_Simp Simp_lists Simp_diff Spec_Rips.
From Coq Require Import Sorted Permutation.
Local Open Scope Z_scope.

Lemma insert_In v t x : ~ In v t -> In x (insert_vertex v t) <-> x = v \/ In x t.
Proof.
  intros Hv. unfold insert_vertex. rewrite in_app_iff. simpl. rewrite !filter_In, !Nat.ltb_lt.
  destruct (lt_eq_lt_dec x v) as [[H|H]|H]; intuition (auto; try lia; try congruence).
Qed.

Lemma insert_increasing v t : increasing t -> ~ In v t -> increasing (insert_vertex v t).
Proof.
  intros Ht Hv. unfold insert_vertex.
  assert (H1 : increasing (filter (fun u => Nat.ltb u v) t)) by (apply filter_sorted; auto).
  assert (H2 : increasing (filter (fun u => Nat.ltb v u) t)) by (apply filter_sorted; auto).
  assert (F1 : Forall (fun u => (u < v)%nat) (filter (fun u => Nat.ltb u v) t)).
  { apply Forall_forall. intros u Hu. apply filter_In in Hu. destruct Hu as [_ Hu]. apply Nat.ltb_lt. auto. }
  assert (F2 : Forall (fun u => (v < u)%nat) (filter (fun u => Nat.ltb v u) t)).
  { apply Forall_forall. intros u Hu. apply filter_In in Hu. destruct Hu as [_ Hu]. apply Nat.ltb_lt. auto. }
  clear Ht Hv. revert H1 F1. generalize (filter (fun u => Nat.ltb u v) t). intros l H1 F1.
  induction H1 as [|x l Hs IH Hx]; simpl.
  - constructor; auto.
  - inversion F1; subst. constructor; [apply IH; auto|]. apply Forall_app. split; auto. constructor; auto.
    eapply Forall_impl; [|exact F2]. simpl. intros; lia.
Qed.

Lemma facet_insert s t x : increasing s -> increasing t -> ~ In x t -> insert_vertex x t = s ->
  exists k, (k < length s)%nat /\ nth k s 0%nat = x /\ facet k s = t /\ length (filter (fun u => Nat.ltb u x) t) = k.
Proof.
  intros Hs Ht Hx E. exists (length (filter (fun u => Nat.ltb u x) t)).
  set (a := filter (fun u => Nat.ltb u x) t) in *. unfold insert_vertex in E. fold a in E.
  set (b := filter (fun u => Nat.ltb x u) t) in *.
  assert (Hn : nth (length a) s 0%nat = x) by (rewrite <- E, app_nth2, Nat.sub_diag by lia; reflexivity).
  assert (Hl : (length a < length s)%nat) by (rewrite <- E, app_length; simpl; lia).
  repeat split; auto.
  apply increasing_ext; auto; [apply facet_increasing; auto|].
  intros y. rewrite facet_In, Hn by auto. rewrite <- E. fold (insert_vertex x t).
  change (a ++ x :: b) with (insert_vertex x t). rewrite insert_In by auto. split.
  - intros [[->|H] Hne]; congruence || auto.
  - intros H. split; auto. intros ->. auto.
Qed.

Lemma insert_facet s k : increasing s -> (k < length s)%nat ->
  let x := nth k s 0%nat in ~ In x (facet k s) /\ insert_vertex x (facet k s) = s.
Proof.
  intros Hs Hk x. assert (Hx : ~ In x (facet k s)).
  { rewrite facet_In by auto. tauto. }
  split; auto. apply increasing_ext; auto.
  - apply insert_increasing; auto. apply facet_increasing; auto.
  - intros y. rewrite insert_In by auto. rewrite facet_In by auto. fold x. split.
    + intros [->|[H _]]; auto. apply nth_In; auto.
    + intros H. destruct (Nat.eq_dec y x); auto.
Qed.

(** The coefficient [bdc t s] as a sum over the inserted vertex. *)
Lemma bdc_insert n s t : increasing s -> increasing t -> (forall v, In v s -> (v < n)%nat) ->
  bdc t s = Zsum n (fun x => if memn x t then 0 else
     sg (length (filter (fun u => Nat.ltb u x) t)) * ind (simp_eqb (insert_vertex x t) s)).
Proof.
  intros Hs Ht Hn. destruct (face_or_not s t) as [(k & Hk & Et)|Hno].
  - rewrite Et at 1. rewrite bdc_facet by auto.
    destruct (insert_facet s k Hs Hk) as [H1 H2]. set (x := nth k s 0%nat) in *. rewrite <- Et in H1, H2.
    destruct (facet_insert s t x Hs Ht H1 H2) as (k' & Hk' & E1 & E2 & E3).
    assert (Ekk : k' = k) by (apply (facet_inj k' k s); auto; congruence). rewrite Ekk in E3.
    rewrite (Zsum_single n x).
    + destruct (memn x t) eqn:M; [apply memn_In in M; tauto|].
      rewrite E3. replace (simp_eqb _ _) with true by (symmetry; apply simp_eqb_eq; auto). simpl. ring.
    + apply Hn. apply nth_In. auto.
    + intros y Hy Hne. destruct (memn y t) eqn:M; auto.
      destruct (simp_eqb (insert_vertex y t) s) eqn:E; [|simpl; ring].
      apply simp_eqb_eq in E. exfalso. apply Hne.
      assert (My : ~ In y t) by (rewrite <- memn_In; congruence).
      destruct (facet_insert s t y Hs Ht My E) as (l & Hl & F1 & F2 & _).
      rewrite <- F1. unfold x. f_equal. apply (facet_inj l k s); auto. congruence.
  - rewrite bdc_other by auto. symmetry. apply Zsum_0. intros x Hx. destruct (memn x t) eqn:M; auto.
    destruct (simp_eqb (insert_vertex x t) s) eqn:E; [|simpl; ring].
    apply simp_eqb_eq in E. exfalso.
    assert (Mx : ~ In x t) by (rewrite <- memn_In; congruence).
    destruct (facet_insert s t x Hs Ht Mx E) as (l & Hl & F1 & F2 & _). apply (Hno l Hl). auto.
Qed.

(** ** Chains on simplices from chains on indices *)
Lemma on_simplices_nth L v i : NoDup L -> (i < length L)%nat -> on_simplices L v (nth i L []) = v i.
Proof.
  intros HL Hi. unfold on_simplices. rewrite (Zsum_single _ i); auto.
  - destruct (list_eq_dec _ _ _); congruence.
  - intros j Hj Hne. destruct (list_eq_dec _ _ _) as [E|]; auto. exfalso. apply Hne.
    apply (proj1 (NoDup_nth L []) HL); auto.
Qed.

Lemma on_simplices_out L v s : ~ In s L -> on_simplices L v s = 0.
Proof.
  intros H. apply Zsum_0. intros i Hi. destruct (list_eq_dec _ _ _) as [E|]; auto.
  exfalso. apply H. rewrite <- E. apply nth_In. auto.
Qed.

Lemma on_simplices_cases L v s : NoDup L ->
  (exists i, (i < length L)%nat /\ nth i L [] = s /\ on_simplices L v s = v i) \/ (~ In s L /\ on_simplices L v s = 0).
Proof.
  intros HL. destruct (in_dec (list_eq_dec Nat.eq_dec) s L) as [H|H].
  - left. destruct (In_nth _ _ [] H) as (i & Hi & E). exists i. repeat split; auto.
    rewrite <- E. apply on_simplices_nth; auto.
  - right. split; auto. apply on_simplices_out; auto.
Qed.

Lemma on_simplices_lin L n (c : nat -> Z) (g : nat -> nat -> Z) s :
  on_simplices L (fun i => Zsum n (fun k => c k * g k i)) s = Zsum n (fun k => c k * on_simplices L (g k) s).
Proof.
  unfold on_simplices.
  rewrite (Zsum_ext n _ (fun k => Zsum (length L) (fun i => c k * (if list_eq_dec Nat.eq_dec (nth i L []) s then g k i else 0))))
    by (intros; rewrite Zsum_scale; auto).
  rewrite Zsum_swap. apply Zsum_ext. intros i Hi. destruct (list_eq_dec _ _ _); auto.
  symmetry. apply Zsum_0. intros; ring.
Qed.

Lemma on_simplices_sub L v w s : on_simplices L (fun i => v i - w i) s = on_simplices L v s - on_simplices L w s.
Proof.
  unfold on_simplices. rewrite <- Zsum_sub. apply Zsum_ext. intros i _. destruct (list_eq_dec _ _ _); ring.
Qed.

Lemma on_simplices_cong p L v w s : (forall i, (i < length L)%nat -> cong p (v i) (w i)) ->
  cong p (on_simplices L v s) (on_simplices L w s).
Proof.
  intros H. unfold on_simplices. apply Zsum_cong. intros i Hi. destruct (list_eq_dec _ _ _); auto. reflexivity.
Qed.

(** The simplicial boundary in terms of the boundary coefficients of the simplices of a level. *)
Lemma simplicial_bd_sum n L (v : nat -> Z) t : NoDup L -> increasing t ->
  (forall s, In s L -> increasing s /\ forall x, In x s -> (x < n)%nat) ->
  simplicial_bd n (on_simplices L v) t = Zsum (length L) (fun j => bdc t (nth j L []) * v j).
Proof.
  intros HL Ht Hs. unfold simplicial_bd.
  rewrite (Zsum_ext (length L) _ (fun j => Zsum n (fun x => (if memn x t then 0 else
     sg (length (filter (fun u => Nat.ltb u x) t)) * ind (simp_eqb (insert_vertex x t) (nth j L []))) * v j))).
  2:{ intros j Hj. destruct (Hs (nth j L [])) as [H1 H2]; [apply nth_In; auto|].
      rewrite (bdc_insert n) by auto. rewrite <- Zsum_scale_r. reflexivity. }
  rewrite Zsum_swap. apply Zsum_ext. intros x Hx. destruct (memn x t).
  { symmetry. apply Zsum_0. intros; ring. }
  unfold on_simplices. fold (sg (length (filter (fun u => Nat.ltb u x) t))). rewrite <- Zsum_scale.
  apply Zsum_ext. intros j Hj. unfold simp_eqb.
  destruct (list_eq_dec Nat.eq_dec (nth j L []) (insert_vertex x t)) as [E|E];
    destruct (list_eq_dec Nat.eq_dec (insert_vertex x t) (nth j L [])) as [E'|E']; simpl; try congruence; try ring.
  all: exfalso; congruence.
Qed.

Lemma simplicial_bd_cong p n c c' t : (forall s, cong p (c s) (c' s)) ->
  cong p (simplicial_bd n c t) (simplicial_bd n c' t).
Proof.
  intros H. unfold simplicial_bd. apply Zsum_cong. intros v _. destruct (memn v t); [reflexivity|].
  apply cong_mul; [reflexivity|]. apply H.
Qed.
