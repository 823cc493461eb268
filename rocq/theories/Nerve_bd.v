(** * Insertion of vertices: the square of the simplicial boundary, and cones *)
From Verif Require Import Base ListX SortX Lin Spec_Simp Simp_lists Simp_diff Spec_Rips Rips_bd.
From Coq Require Import Sorted Permutation.
Local Open Scope Z_scope.

Definition sgn (v : nat) (t : list nat) : Z := (-1) ^ Z.of_nat (length (filter (fun u => Nat.ltb u v) t)).
Definition without (a : nat) (t : list nat) : list nat := filter (fun u => negb (Nat.eqb u a)) t.

Lemma sgn_sq v t : sgn v t * sgn v t = 1.
Proof. unfold sgn. rewrite <- Z.pow_mul_l. change (-1 * -1) with 1. apply Z.pow_1_l. lia. Qed.

Lemma bd_sgn n c t : simplicial_bd n c t = Zsum n (fun v => if memn v t then 0 else sgn v t * c (insert_vertex v t)).
Proof. reflexivity. Qed.

Lemma insert_perm v t : increasing t -> ~ In v t -> Permutation (insert_vertex v t) (v :: t).
Proof.
  intros Ht Hv. apply NoDup_Permutation.
  - apply increasing_NoDup, insert_increasing; auto.
  - constructor; [exact Hv|apply increasing_NoDup; exact Ht].
  - intros x. rewrite insert_In by exact Hv. cbn [In]. intuition congruence.
Qed.
Lemma insert_length v t : increasing t -> ~ In v t -> length (insert_vertex v t) = S (length t).
Proof. intros Ht Hv. rewrite (Permutation_length (insert_perm v t Ht Hv)). reflexivity. Qed.

Lemma filter_perm {A} (f : A -> bool) l l' : Permutation l l' -> Permutation (filter f l) (filter f l').
Proof.
  intros H. induction H as [|x l l' _ IH|x y l|l l' l'' _ IH1 _ IH2]; cbn [filter]; auto.
  - destruct (f x); auto.
  - destruct (f x), (f y); auto. apply perm_swap.
  - transitivity (filter f l'); auto.
Qed.

Lemma sgn_insert v a t : increasing t -> ~ In a t -> sgn v (insert_vertex a t) = (if Nat.ltb a v then - sgn v t else sgn v t).
Proof.
  intros Ht Ha. unfold sgn. rewrite (Permutation_length (filter_perm (fun u => Nat.ltb u v) _ _ (insert_perm a t Ht Ha))). cbn [filter].
  destruct (Nat.ltb a v); [|reflexivity]. cbn [length]. rewrite Nat2Z.inj_succ, Z.pow_succ_r by lia. lia.
Qed.

Lemma insert_comm v w t : increasing t -> v <> w -> ~ In v t -> ~ In w t -> insert_vertex v (insert_vertex w t) = insert_vertex w (insert_vertex v t).
Proof.
  intros Ht Hvw Hv Hw.
  assert (Hv' : ~ In v (insert_vertex w t)) by (rewrite insert_In by exact Hw; intuition congruence).
  assert (Hw' : ~ In w (insert_vertex v t)) by (rewrite insert_In by exact Hv; intuition congruence).
  apply increasing_ext; try (apply insert_increasing; [apply insert_increasing; auto|auto]).
  intros x. rewrite !insert_In by auto. tauto.
Qed.

Lemma sgn_swap v w t : increasing t -> v <> w -> ~ In v t -> ~ In w t -> sgn v t * sgn w (insert_vertex v t) = - (sgn w t * sgn v (insert_vertex w t)).
Proof.
  intros Ht Hvw Hv Hw. rewrite !sgn_insert by auto. destruct (Nat.ltb_spec v w), (Nat.ltb_spec w v); try lia.
Qed.

Lemma sgn_swap' a v t : increasing t -> a <> v -> ~ In a t -> ~ In v t -> sgn v (insert_vertex a t) * sgn a (insert_vertex v t) = - (sgn a t * sgn v t).
Proof.
  intros Ht Hav Ha Hv. rewrite !sgn_insert by auto. destruct (Nat.ltb_spec a v), (Nat.ltb_spec v a); try lia.
Qed.

Lemma memn_false x l : memn x l = false <-> ~ In x l.
Proof. rewrite <- memn_In. destruct (memn x l); intuition congruence. Qed.
Lemma memn_insert v w t : ~ In w t -> memn v (insert_vertex w t) = (Nat.eqb v w || memn v t)%bool.
Proof.
  intros Hw. destruct (memn v (insert_vertex w t)) eqn:E; symmetry.
  - apply memn_In in E. rewrite insert_In in E by exact Hw. apply Bool.orb_true_iff. rewrite Nat.eqb_eq, memn_In. exact E.
  - apply memn_false in E. rewrite insert_In in E by exact Hw. apply Bool.orb_false_iff. rewrite Nat.eqb_neq, memn_false. tauto.
Qed.

Lemma antisym_sum n (f : nat -> nat -> Z) : (forall v w, f v w = - f w v) -> Zsum n (fun v => Zsum n (fun w => f v w)) = 0.
Proof.
  intros H. assert (E : Zsum n (fun v => Zsum n (fun w => f v w)) = - Zsum n (fun v => Zsum n (fun w => f v w))).
  { rewrite Zsum_swap at 1. rewrite <- Zsum_opp. apply Zsum_ext. intros v _. rewrite <- Zsum_opp. apply Zsum_ext. intros w _. rewrite H. lia. }
  lia.
Qed.

(** The boundary of a boundary. *)
Lemma bd_bd n c t : increasing t -> simplicial_bd n (simplicial_bd n c) t = 0.
Proof.
  intros Ht. rewrite bd_sgn.
  transitivity (Zsum n (fun v => Zsum n (fun w => if memn v t then 0 else if memn w t then 0 else if Nat.eqb v w then 0 else sgn v t * sgn w (insert_vertex v t) * c (insert_vertex w (insert_vertex v t))))).
  - apply Zsum_ext. intros v _. destruct (memn v t) eqn:Ev; [symmetry; apply Zsum_0; auto|]. apply memn_false in Ev. rewrite bd_sgn, <- Zsum_scale. apply Zsum_ext. intros w _.
    rewrite memn_insert by exact Ev. rewrite (Nat.eqb_sym v w). destruct (Nat.eqb w v), (memn w t); cbn [orb]; ring.
  - apply antisym_sum. intros v w. rewrite (Nat.eqb_sym w v). destruct (memn v t) eqn:Ev, (memn w t) eqn:Ew, (Nat.eqb v w) eqn:E; try reflexivity.
    apply memn_false in Ev, Ew. apply Nat.eqb_neq in E. rewrite (insert_comm w v) by auto. rewrite (sgn_swap v w) by auto. ring.
Qed.

Lemma without_In a t x : In x (without a t) <-> In x t /\ x <> a.
Proof. unfold without. rewrite filter_In, Bool.negb_true_iff, Nat.eqb_neq. reflexivity. Qed.
Lemma without_increasing a t : increasing t -> increasing (without a t).
Proof. intros H. apply filter_sorted. exact H. Qed.
Lemma without_insert a t : increasing t -> ~ In a t -> without a (insert_vertex a t) = t.
Proof.
  intros Ht Ha. apply increasing_ext; [apply without_increasing, insert_increasing; auto|auto|]. intros x. rewrite without_In, insert_In by exact Ha.
  split; [intros [[->|H] H']; [congruence|exact H]|intros H; split; [auto|intros ->; auto]].
Qed.
Lemma insert_without a t : increasing t -> In a t -> insert_vertex a (without a t) = t.
Proof.
  intros Ht Ha. assert (Hn : ~ In a (without a t)) by (rewrite without_In; tauto).
  apply increasing_ext; [apply insert_increasing; [apply without_increasing|]; auto|auto|]. intros x. rewrite insert_In by exact Hn. rewrite without_In.
  split; [intros [->|[H _]]; auto|]. intros H. destruct (Nat.eq_dec x a); auto.
Qed.
Lemma without_insert_other a v t : increasing t -> In a t -> ~ In v t -> without a (insert_vertex v t) = insert_vertex v (without a t).
Proof.
  intros Ht Ha Hv. assert (Hn : ~ In v (without a t)) by (rewrite without_In; tauto).
  apply increasing_ext; [apply without_increasing, insert_increasing; auto|apply insert_increasing; [apply without_increasing|]; auto|].
  intros x. rewrite without_In, !insert_In by auto. rewrite without_In. split; [tauto|]. intros [->|H]; [split; auto; intros ->; auto|tauto].
Qed.

(** The cone with vertex [a] over a chain. *)
Definition cone_at (a : nat) (c : list nat -> Z) (t : list nat) : Z := if memn a t then sgn a (without a t) * c (without a t) else 0.

Lemma cone_bd n a c t : (a < n)%nat -> increasing t ->
  simplicial_bd n (cone_at a c) t + (if memn a t then sgn a (without a t) * simplicial_bd n c (without a t) else 0) = c t.
Proof.
  intros Ha Ht. destruct (memn a t) eqn:Ea.
  - apply memn_In in Ea. set (u := without a t). assert (Hu : increasing u) by (apply without_increasing; exact Ht).
    assert (Hau : ~ In a u) by (unfold u; rewrite without_In; tauto). assert (Et : t = insert_vertex a u) by (symmetry; apply insert_without; auto).
    rewrite !bd_sgn, <- Zsum_scale, <- Zsum_add. rewrite (Zsum_single n a); [|exact Ha|].
    + replace (memn a t) with true by (symmetry; apply memn_In; exact Ea). replace (memn a u) with false by (symmetry; apply memn_false; exact Hau).
      rewrite <- Et. rewrite Z.mul_assoc, sgn_sq. ring.
    + intros v _ Hva. rewrite Et at 1. rewrite memn_insert by exact Hau. replace (Nat.eqb v a) with false by (symmetry; apply Nat.eqb_neq; exact Hva). cbn [orb].
      destruct (memn v u) eqn:Ev; [ring|]. apply memn_false in Ev.
      assert (Hvt : ~ In v t) by (rewrite Et; rewrite insert_In by exact Hau; tauto).
      unfold cone_at. rewrite memn_insert by exact Hvt. replace (memn a t) with true by (symmetry; apply memn_In; exact Ea). rewrite Bool.orb_true_r.
      rewrite without_insert_other by auto. fold u. rewrite Z.mul_assoc. rewrite Et at 1. rewrite (sgn_swap' a v u) by auto. ring.
  - apply memn_false in Ea. rewrite bd_sgn. rewrite (Zsum_single n a); [|exact Ha|].
    + replace (memn a t) with false by (symmetry; apply memn_false; exact Ea). unfold cone_at. rewrite memn_insert, Nat.eqb_refl by exact Ea. cbn [orb].
      rewrite without_insert by auto. rewrite Z.mul_assoc, sgn_sq. ring.
    + intros v _ Hva. destruct (memn v t) eqn:Ev; [reflexivity|]. apply memn_false in Ev. unfold cone_at. rewrite memn_insert by exact Ev.
      replace (Nat.eqb a v) with false by (symmetry; apply Nat.eqb_neq; auto). replace (memn a t) with false by (symmetry; apply memn_false; exact Ea). cbn [orb]. ring.
Qed.
