(** * Positions in consecutive blocks *)
From Verif Require Import Base ListX Lin.
Local Open Scope Z_scope.

Section Blocks.
Variable len : nat -> nat.
Definition start (k : nat) : nat := list_sum (map len (seq 0 k)).

Lemma start_S k : start (S k) = (start k + len k)%nat.
Proof. unfold start. rewrite seq_S, map_app, list_sum_app. cbn. lia. Qed.

Lemma start_mono j k : (j <= k)%nat -> (start j <= start k)%nat.
Proof. induction 1; [lia|]. rewrite start_S. lia. Qed.

Lemma start_end j k : (j < k)%nat -> (start j + len j <= start k)%nat.
Proof. intros H. rewrite <- start_S. apply start_mono. auto. Qed.

Lemma split_pos K h : (h < start K)%nat -> exists k a, (k < K)%nat /\ (a < len k)%nat /\ h = (start k + a)%nat.
Proof.
  induction K as [|K IH]; [cbn; lia|]. rewrite start_S. intros H. destruct (Nat.lt_ge_cases h (start K)) as [Hl|Hl].
  - destruct (IH Hl) as (k & a & H1 & H2 & H3). exists k, a. repeat split; auto.
  - exists K, (h - start K)%nat. lia.
Qed.

Lemma pos_inj k a k' a' : (a < len k)%nat -> (a' < len k')%nat -> (start k + a = start k' + a')%nat -> k = k' /\ a = a'.
Proof.
  intros Ha Ha' E. destruct (lt_eq_lt_dec k k') as [[H|H]|H].
  - pose proof (start_end _ _ H). lia.
  - subst k'. split; lia.
  - pose proof (start_end _ _ H). lia.
Qed.

Definition in_block (k h : nat) : bool := Nat.leb (start k) h && Nat.ltb h (start k + len k).

Lemma in_block_iff k h : in_block k h = true <-> exists a, (a < len k)%nat /\ h = (start k + a)%nat.
Proof.
  unfold in_block. rewrite andb_true_iff, Nat.leb_le, Nat.ltb_lt. split.
  - intros H. exists (h - start k)%nat. lia.
  - intros (a & H & ->). lia.
Qed.

Lemma in_block_pos k a k' : (a < len k)%nat -> in_block k' (start k + a) = Nat.eqb k' k.
Proof.
  intros Ha. destruct (Nat.eqb_spec k' k) as [->|Hne].
  - apply in_block_iff. eauto.
  - destruct (in_block k' (start k + a)) eqn:E; auto. apply in_block_iff in E. destruct E as (a' & Ha' & E). apply pos_inj in E; auto. lia.
Qed.

(** A sum over all positions of something supported on one block. *)
Lemma Zsum_block K k f : (k < K)%nat -> (forall h, (h < start K)%nat -> in_block k h = false -> f h = 0) ->
  Zsum (start K) f = Zsum (len k) (fun a => f (start k + a)%nat).
Proof.
  intros Hk Hf. pose proof (start_end k K Hk) as He.
  replace (start K) with (start k + len k + (start K - (start k + len k)))%nat by lia. rewrite !Zsum_app.
  rewrite (Zsum_0 (start k)), (Zsum_0 (start K - (start k + len k))); [lia| |].
  - intros h Hh. apply Hf; [lia|]. unfold in_block. apply andb_false_iff. right. apply Nat.ltb_ge. lia.
  - intros h Hh. apply Hf; [lia|]. unfold in_block. apply andb_false_iff. left. apply Nat.leb_gt. lia.
Qed.

(** Coefficients given block by block. *)
Definition gather (K : nat) (c : nat -> nat -> Z) (h : nat) : Z := Zsum K (fun k => if in_block k h then c k (h - start k)%nat else 0).

Lemma gather_pos K c k a : (k < K)%nat -> (a < len k)%nat -> gather K c (start k + a) = c k a.
Proof.
  intros Hk Ha. unfold gather. rewrite (Zsum_single K k); auto.
  - rewrite in_block_pos, Nat.eqb_refl by auto. f_equal. lia.
  - intros k' _ Hne. rewrite in_block_pos by auto. destruct (Nat.eqb_spec k' k); congruence.
Qed.

Lemma gather_out K c h : (start K <= h)%nat -> gather K c h = 0.
Proof.
  intros Hh. unfold gather. apply Zsum_0. intros k Hk. destruct (in_block k h) eqn:E; auto. apply in_block_iff in E. destruct E as (a & Ha & ->).
  pose proof (start_end k K Hk). lia.
Qed.
End Blocks.

Lemma nth_concat_start {A} (blk : nat -> list A) K k a d : (k < K)%nat -> (a < length (blk k))%nat ->
  nth (start (fun k => length (blk k)) k + a) (concat (map blk (seq 0 K))) d = nth a (blk k) d.
Proof.
  intros Hk Ha. revert Hk. induction K as [|K IH]; [lia|]. intros Hk. rewrite seq_S, map_app, concat_app. cbn [map concat]. rewrite app_nil_r.
  assert (HL : length (concat (map blk (seq 0 K))) = start (fun k => length (blk k)) K).
  { unfold start. clear. generalize (seq 0 K). intros l. induction l as [|x l IH]; [reflexivity|]. cbn. rewrite app_length. unfold list_sum in IH. rewrite IH. reflexivity. }
  destruct (Nat.eq_dec k K) as [->|Hne].
  - rewrite app_nth2 by lia. f_equal. cbn [Nat.add]. lia.
  - rewrite app_nth1; [apply IH; lia|]. rewrite HL. pose proof (start_end (fun k => length (blk k)) k K ltac:(lia)). lia.
Qed.

Lemma length_concat_start {A} (blk : nat -> list A) K : length (concat (map blk (seq 0 K))) = start (fun k => length (blk k)) K.
Proof.
  unfold start. generalize (seq 0 K). intros l. induction l as [|x l IH]; [reflexivity|]. cbn. rewrite app_length. unfold list_sum in IH. rewrite IH. reflexivity.
Qed.
