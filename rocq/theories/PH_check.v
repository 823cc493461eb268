(** * A decision procedure for [valid_complex], for concrete examples *)
From Verif Require Import Base ListX Lin Spec_PH.
From Coq Require Import Znumtheory.
Local Open Scope Z_scope.

Definition all_below (n : nat) (f : nat -> bool) : bool := forallb f (seq 0 n).

Lemma all_below_ok n f : all_below n f = true <-> forall k, (k < n)%nat -> f k = true.
Proof.
  unfold all_below. rewrite forallb_forall. split; intros H k Hk.
  - apply H. apply in_seq. lia.
  - apply H. apply in_seq in Hk. lia.
Qed.

Definition check_mat (p : Z) (R : list (list Z)) (d : nat) (D : mat) : bool :=
  forallb (fun c => Nat.eqb (length c) (nrows D) && forallb (fun x => (0 <=? x) && (x <? p)) c) (cols D) &&
  Nat.eqb (ncols D) (csize R (S d)) && Nat.eqb (nrows D) (csize R d) &&
  (negb (Nat.eqb (csize R d) 0) || Nat.eqb (csize R (S d)) 0).

Definition check_complex (p max_rad : Z) (n0 : nat) (Ds : list mat) (R : list (list Z)) : bool :=
  (1 <? p) && Nat.eqb (length R) (S (length Ds)) && Nat.ltb 0 (length Ds) && Nat.eqb (csize R 0) n0 &&
  all_below (length Ds) (fun d => check_mat p R d (nth d Ds (Mat 0 []))) &&
  all_below (length Ds) (fun d => all_below (csize R d) (fun i => all_below (csize R (S (S d))) (fun j =>
     Zsum (csize R (S d)) (fun k => bd_entry Ds (S d) i k * bd_entry Ds (S (S d)) k j) mod p =? 0))) &&
  all_below (length R) (fun d => all_below (csize R d) (fun i =>
     (crad R d i <? max_rad) && (negb (Nat.ltb (S i) (csize R d)) || (crad R d i <=? crad R d (S i))))) &&
  all_below (csize R 0) (fun i => crad R 0 i =? 0) &&
  all_below (length Ds) (fun d => all_below (csize R (S d)) (fun j => all_below (csize R d) (fun i =>
     (bd_entry Ds (S d) i j =? 0) || (crad R d i <=? crad R (S d) j)))).

Lemma check_complex_ok p max_rad n0 Ds R : check_complex p max_rad n0 Ds R = true -> valid_complex p max_rad n0 Ds R.
Proof.
  unfold check_complex. rewrite !andb_true_iff. intros [[[[[[[[Hp HR] Ht] Hn] Hm] Hs] Hr] Hz] Hf].
  apply Z.ltb_lt in Hp. apply Nat.eqb_eq in HR, Hn. apply Nat.ltb_lt in Ht.
  assert (Hm' : forall d, (d < length Ds)%nat -> let D := nth d Ds (Mat 0 []) in
     wf_mat D /\ (forall i j, 0 <= get D i j < p) /\ ncols D = csize R (S d) /\ nrows D = csize R d /\
     (csize R d = 0 -> csize R (S d) = 0)%nat).
  { intros d Hd D. apply (proj1 (all_below_ok _ _) Hm) in Hd. unfold check_mat in Hd. fold D in Hd.
    rewrite !andb_true_iff in Hd. destruct Hd as [[[H1 H2] H3] H4].
    apply Nat.eqb_eq in H2, H3. rewrite forallb_forall in H1. split; [|split; [|split; [|split]]]; auto.
    - apply Forall_forall. intros c Hc. apply H1 in Hc. apply andb_true_iff in Hc. apply Nat.eqb_eq. tauto.
    - intros i j. unfold get, vget, col. destruct (lt_dec j (ncols D)) as [Hj|Hj].
      + apply (nth_In _ []) in Hj. apply H1 in Hj. apply andb_true_iff in Hj. destruct Hj as [_ Hj].
        rewrite forallb_forall in Hj. destruct (lt_dec i (length (nth j (cols D) []))) as [Hi|Hi].
        * apply (nth_In _ 0) in Hi. apply Hj in Hi. lia.
        * rewrite nth_overflow by lia. lia.
      + rewrite (nth_overflow (cols D)) by (unfold ncols in Hj; lia). rewrite nth_overflow by (cbn; lia). lia.
    - intros E. rewrite E in H4. cbn in H4. apply Nat.eqb_eq in H4. auto. }
  assert (Hrow : forall d i j, (d < length Ds)%nat -> (csize R d <= i)%nat -> bd_entry Ds (S d) i j = 0).
  { intros d i j Hd Hi. cbn [bd_entry]. destruct (Hm' d Hd) as (Hw & _ & _ & Hnr & _). unfold get, vget, col.
    destruct (lt_dec j (ncols (nth d Ds (Mat 0 [])))) as [Hj|Hj].
    - unfold wf_mat in Hw. rewrite Forall_forall in Hw. apply (nth_In _ []) in Hj. apply Hw in Hj. apply nth_overflow.
      unfold vec in *. lia.
    - rewrite (nth_overflow (cols _)) by (unfold ncols in Hj; lia). destruct i; reflexivity. }
  assert (Hsmall : forall d, (length R <= d)%nat -> csize R d = 0%nat).
  { intros d Hd. unfold csize. rewrite nth_overflow; auto. }
  assert (Hr' : forall d i, (i < csize R d)%nat -> crad R d i < max_rad /\ ((S i < csize R d)%nat -> crad R d i <= crad R d (S i))).
  { intros d i Hi. destruct (lt_dec d (length R)) as [Hd|Hd]; [|rewrite Hsmall in Hi; lia].
    apply (proj1 (all_below_ok _ _) Hr) in Hd. apply (proj1 (all_below_ok _ _) Hd) in Hi.
    apply andb_true_iff in Hi. destruct Hi as [H1 H2]. split; [lia|]. intros Hl. apply Nat.ltb_lt in Hl. rewrite Hl in H2.
    cbn in H2. lia. }
  constructor; auto; try (intros d Hd; apply (Hm' d Hd)).
  - intros d i j Hd. apply (Hm' d Hd).
  - intros d i j Hj. destruct (lt_dec (S d) (length Ds)) as [Hd|Hd]; [|rewrite Hsmall in Hj; lia].
    destruct (lt_dec i (csize R d)) as [Hi|Hi].
    + assert (Hd' : (d < length Ds)%nat) by lia.
      apply (proj1 (all_below_ok _ _) Hs) in Hd'. apply (proj1 (all_below_ok _ _) Hd') in Hi.
      apply (proj1 (all_below_ok _ _) Hi) in Hj. apply Z.eqb_eq. exact Hj.
    + rewrite Zsum_0; [apply Z.mod_0_l; lia|]. intros k Hk. rewrite Hrow by lia. ring.
  - intros d i j Hij. destruct Hij as [Hij Hj].
    induction Hij as [|j Hij IH]; [lia|]. destruct (Hr' d j ltac:(lia)) as [_ H]. specialize (IH ltac:(lia)). specialize (H Hj). lia.
  - intros d i Hi. apply (Hr' d i Hi).
  - intros i Hi. apply (proj1 (all_below_ok _ _) Hz) in Hi. lia.
  - intros d i j Hj Hne. destruct (lt_dec d (length Ds)) as [Hd|Hd]; [|rewrite Hsmall in Hj; lia].
    destruct (lt_dec i (csize R d)) as [Hi|Hi]; [|rewrite Hrow in Hne; [congruence|lia|lia]].
    apply (proj1 (all_below_ok _ _) Hf) in Hd. apply (proj1 (all_below_ok _ _) Hd) in Hj.
    apply (proj1 (all_below_ok _ _) Hj) in Hi. lia.
Qed.
