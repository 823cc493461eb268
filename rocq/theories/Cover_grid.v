(** * Proofs about positions in the grid and the odometers *)
From Verif Require Import Base ListX Cover_model Spec_Cover.
Local Open Scope Z_scope.

Lemma Forall2_length {A B} {R : A -> B -> Prop} {l l'} : Forall2 R l l' -> length l = length l'.
Proof. induction 1; simpl; auto. Qed.

(** ** Forward form of the odometer *)
Fixpoint nxt (lo : Z) (top pos : list Z) : option (list Z) :=
  match top, pos with
  | t :: top', x :: pos' =>
      match nxt lo top' pos' with
      | Some r => Some (x :: r)
      | None => if x <? t then Some (x + 1 :: repeat lo (length pos')) else None
      end
  | _, _ => None
  end.

Lemma odometer_snoc lo rp : forall pre rt x t, length rp = length rt ->
  odometer lo pre (rp ++ [x]) (rt ++ [t]) =
  match odometer lo pre rp rt with
  | Some r => Some (r ++ [x])
  | None => if x <? t then Some (repeat lo (pre + length rp) ++ [x + 1]) else None
  end.
Proof.
  induction rp as [|y rp IH]; intros pre [|u rt] x t Hl; simpl in Hl; try lia.
  - simpl. rewrite Nat.add_0_r. reflexivity.
  - simpl. destruct (y <? u).
    + rewrite <- app_assoc. reflexivity.
    + rewrite IH by lia. destruct (odometer lo (S pre) rp rt); auto. simpl. rewrite Nat.add_succ_r. reflexivity.
Qed.

Lemma odometer_nxt lo top : forall pos, length pos = length top ->
  odometer lo 0 (rev pos) (rev top) = option_map (@rev Z) (nxt lo top pos).
Proof.
  induction top as [|t top IH]; intros [|x pos] Hl; simpl in Hl; try lia; [reflexivity|].
  simpl. rewrite odometer_snoc by (rewrite !rev_length; lia). rewrite IH by lia.
  destruct (nxt lo top pos); simpl; [reflexivity|]. destruct (x <? t); simpl; [|reflexivity].
  rewrite rev_length. f_equal. f_equal.
  clear. generalize (length pos). intros n. induction n; simpl; [reflexivity|].
  rewrite <- IHn. apply repeat_cons.
Qed.

Lemma advance_nxt lo top pos : length pos = length top ->
  advance lo top pos = match nxt lo top pos with Some r => r | None => pos end.
Proof.
  intros H. unfold advance. rewrite odometer_nxt by auto. destruct (nxt lo top pos); simpl; auto using rev_involutive.
Qed.

(** ** Index of a tuple of digits between [lo] and [top] *)
Definition digits (lo : Z) (top a : list Z) : Prop := Forall2 (fun t x => lo <= x <= t) top a.
Fixpoint size (lo : Z) (top : list Z) : Z := match top with [] => 1 | t :: ts => (t - lo + 1) * size lo ts end.
Fixpoint index (lo : Z) (top a : list Z) : Z :=
  match top, a with
  | _ :: ts, x :: xs => (x - lo) * size lo ts + index lo ts xs
  | _, _ => 0
  end.

Lemma size_nonneg lo top : Forall (fun t => lo <= t + 1) top -> 0 <= size lo top.
Proof. induction 1; simpl; nia. Qed.

Lemma index_bound lo top a : digits lo top a -> 0 <= index lo top a < size lo top.
Proof. induction 1; simpl; nia. Qed.

Lemma index_zero lo top : index lo top (repeat lo (length top)) = 0.
Proof. induction top; simpl; [reflexivity|]. rewrite IHtop. lia. Qed.

Lemma digits_zero lo top : Forall (fun t => lo <= t) top -> digits lo top (repeat lo (length top)).
Proof. induction 1; simpl; constructor; auto. lia. Qed.

Lemma digits_le lo top a : digits lo top a -> Forall (fun t => lo <= t) top.
Proof. induction 1; constructor; auto. lia. Qed.

Lemma nxt_ok lo top a : digits lo top a ->
  match nxt lo top a with
  | Some b => digits lo top b /\ index lo top b = index lo top a + 1
  | None => index lo top a = size lo top - 1
  end.
Proof.
  induction 1 as [|t x top a Hx Ha IH]; simpl; [reflexivity|]. destruct (nxt lo top a) as [b|].
  - destruct IH as [H1 H2]. split; [constructor; auto|]. rewrite H2. lia.
  - destruct (Z.ltb_spec x t) as [Hlt|Hge].
    + pose proof (Forall2_length Ha) as Hl. rewrite <- Hl. split.
      * constructor; [lia|]. apply digits_zero. eapply digits_le; eauto.
      * rewrite index_zero. rewrite IH. pose proof (index_bound _ _ _ Ha). nia.
    + rewrite IH. assert (x = t) by lia. subst. nia.
Qed.

Lemma advance_ok lo top a : digits lo top a ->
  digits lo top (advance lo top a) /\ index lo top (advance lo top a) = Z.min (index lo top a + 1) (size lo top - 1).
Proof.
  intros H. rewrite advance_nxt by (symmetry; apply (Forall2_length H)). pose proof (nxt_ok _ _ _ H) as Hn.
  pose proof (index_bound _ _ _ H) as Hb. destruct (nxt lo top a) as [b|].
  - destruct Hn as [H1 H2]. split; auto. pose proof (index_bound _ _ _ H1). lia.
  - split; auto. lia.
Qed.

Lemma advance_length lo top a : length a = length top -> length (advance lo top a) = length a.
Proof.
  intros H. rewrite advance_nxt by auto. revert a H. induction top as [|t top IH]; intros [|x a] H; simpl in *; try lia.
  specialize (IH a ltac:(lia)). destruct (nxt lo top a); simpl in *; auto.
  destruct (x <? t); simpl; auto. rewrite repeat_length. auto.
Qed.

(** Lexicographic order *)
Fixpoint lex (a b : list Z) : Prop :=
  match a, b with
  | x :: a', y :: b' => x < y \/ x = y /\ lex a' b'
  | _, _ => False
  end.

Lemma index_lex lo top a : digits lo top a -> forall b, digits lo top b -> (index lo top a < index lo top b <-> lex a b).
Proof.
  induction 1 as [|t x top a Hx Ha IH]; intros b Hb; inversion Hb as [|? y ? b' Hy Hb' E1 E2]; subst; simpl; [lia|].
  specialize (IH b' Hb'). pose proof (index_bound _ _ _ Ha). pose proof (index_bound _ _ _ Hb'). rewrite <- IH.
  destruct (Z_lt_ge_dec x y); [split; intros; [tauto|nia]|]. destruct (Z.eq_dec x y).
  - subst. split; [intros; right; split; [reflexivity|lia]|intros [?|[_ ?]]; lia].
  - split; [intros; exfalso; nia|intros [?|[? ?]]; lia].
Qed.

Lemma lex_irrefl a : ~ lex a a.
Proof. induction a; simpl; [auto|]. intros [?|[_ ?]]; [lia|auto]. Qed.

Lemma lex_trich a : forall b, length a = length b -> lex a b \/ a = b \/ lex b a.
Proof.
  induction a as [|x a IH]; intros [|y b] H; simpl in *; try lia; auto.
  destruct (IH b) as [?|[?|?]]; [lia| | |]; destruct (Z.lt_trichotomy x y) as [?|[?|?]]; subst; auto.
Qed.

Lemma index_inj lo top a b : digits lo top a -> digits lo top b -> index lo top a = index lo top b -> a = b.
Proof.
  intros Ha Hb E. destruct (lex_trich a b) as [H|[H|H]]; auto.
  - rewrite <- (Forall2_length Ha), <- (Forall2_length Hb). reflexivity.
  - apply (index_lex lo top) in H; auto. lia.
  - apply (index_lex lo top) in H; auto. lia.
Qed.

(** Every index is reached. *)
Lemma index_surj lo top : Forall (fun t => lo <= t + 1) top -> forall k, 0 <= k < size lo top -> exists a, digits lo top a /\ index lo top a = k.
Proof.
  induction 1 as [|t top Ht Htop IH]; simpl; intros k Hk.
  - exists []. split; [constructor|]. simpl. lia.
  - pose proof (size_nonneg lo top Htop) as Hn. assert (Hpos : 0 < size lo top) by nia.
    destruct (IH (k mod size lo top)) as (a & Ha & E); [apply Z.mod_pos_bound; lia|].
    exists (lo + k / size lo top :: a). split.
    + constructor; auto. split; [pose proof (Z.div_pos k (size lo top)); lia|].
      assert (k / size lo top < t - lo + 1); [|lia]. apply Z.div_lt_upper_bound; auto. lia.
    + simpl. rewrite E. pose proof (Z.div_mod k (size lo top)). lia.
Qed.

(** ** The grid *)
Definition tops (div : list Z) : list Z := map (fun d => d - 1) div.

Lemma digits_grid div a : digits 0 (tops div) a <-> in_grid div a.
Proof.
  unfold digits, in_grid, tops. split.
  - revert a. induction div as [|d div IH]; intros a H; inversion H; subst; constructor; auto. lia.
  - induction 1; simpl; constructor; auto. lia.
Qed.

Lemma size_grid div : size 0 (tops div) = grid_size div.
Proof. unfold tops. induction div; simpl; [reflexivity|]. rewrite IHdiv. f_equal. lia. Qed.

Lemma index_grid div : forall a, index 0 (tops div) a = grid_index div a.
Proof.
  unfold tops. induction div as [|d div IH]; intros [|x a]; simpl; try reflexivity. fold (tops div). rewrite size_grid.
  rewrite <- IH. unfold tops. lia.
Qed.

Lemma number_hypercubes_ok div : number_hypercubes div = grid_size div.
Proof.
  unfold number_hypercubes. assert (H : forall a, fold_left Z.mul div a = a * grid_size div).
  { induction div as [|d div IH]; intros a; simpl; [lia|]. rewrite IH. lia. }
  rewrite H. lia.
Qed.

Definition start (div : list Z) : list Z := map (fun _ => 0) div.

Lemma start_repeat (lo : Z) (div : list Z) : map (fun _ => lo) div = repeat lo (length div).
Proof. induction div; simpl; congruence. Qed.

Lemma start_grid div : Forall (fun d => 1 <= d) div -> in_grid div (start div) /\ grid_index div (start div) = 0.
Proof.
  intros H. unfold start. rewrite start_repeat. replace (length div) with (length (tops div)) by apply map_length. split.
  - apply digits_grid. apply digits_zero. unfold tops. rewrite Forall_map. eapply Forall_impl; [|exact H]. simpl. intros; lia.
  - rewrite <- index_grid. apply index_zero.
Qed.

Lemma next_ok div a : in_grid div a ->
  in_grid div (next_hypercube a div) /\ grid_index div (next_hypercube a div) = Z.min (grid_index div a + 1) (grid_size div - 1).
Proof.
  intros H. apply digits_grid in H. unfold next_hypercube. fold (tops div). destruct (advance_ok _ _ _ H) as [H1 H2].
  split; [apply digits_grid; auto|]. rewrite <- !index_grid, <- size_grid. auto.
Qed.

Lemma grid_index_bound div a : in_grid div a -> 0 <= grid_index div a < grid_size div.
Proof. intros H. apply digits_grid in H. rewrite <- index_grid, <- size_grid. apply index_bound. auto. Qed.

Lemma grid_index_inj div a b : in_grid div a -> in_grid div b -> grid_index div a = grid_index div b -> a = b.
Proof. rewrite <- !digits_grid, <- !index_grid. apply index_inj. Qed.

Lemma grid_index_lex div a b : in_grid div a -> in_grid div b -> (grid_index div a < grid_index div b <-> lex a b).
Proof. rewrite <- !digits_grid, <- !index_grid. intros Ha Hb. apply index_lex; auto. Qed.

Lemma grid_index_surj div k : Forall (fun d => 0 <= d) div -> 0 <= k < grid_size div -> exists a, in_grid div a /\ grid_index div a = k.
Proof.
  intros H Hk. destruct (index_surj 0 (tops div)) with (k := k) as (a & Ha & E).
  - unfold tops. rewrite Forall_map. eapply Forall_impl; [|exact H]. simpl. intros; lia.
  - rewrite size_grid. auto.
  - exists a. split; [apply digits_grid; auto|]. rewrite <- index_grid. auto.
Qed.

Lemma grid_size_pos div : Forall (fun d => 0 <= d) div -> 0 < grid_size div -> Forall (fun d => 1 <= d) div.
Proof.
  induction 1 as [|d div Hd Hdiv IH]; intros H; constructor; simpl in H.
  - destruct (Z.eq_dec d 0); [subst; lia|lia].
  - apply IH. assert (0 <= grid_size div) by (clear - Hdiv; induction Hdiv; simpl; nia). nia.
Qed.

Lemma grid_size_ge1 div : Forall (fun d => 1 <= d) div -> 1 <= grid_size div.
Proof. induction 1; simpl; nia. Qed.

Lemma iter_next div k : Forall (fun d => 1 <= d) div ->
  let a := Nat.iter k (fun a => next_hypercube a div) (start div) in
  in_grid div a /\ grid_index div a = Z.min (Z.of_nat k) (grid_size div - 1).
Proof.
  intros H. cbv zeta. set (f := fun a => next_hypercube a div). induction k as [|k IH].
  - destruct (start_grid div H) as [H1 H2]. change (Nat.iter 0 f (start div)) with (start div).
    split; auto. rewrite H2. pose proof (grid_size_ge1 div H). lia.
  - change (Nat.iter (S k) f (start div)) with (next_hypercube (Nat.iter k f (start div)) div).
    destruct IH as [H1 H2]. destruct (next_ok _ _ H1) as [H3 H4]. split; auto. rewrite H4, H2. lia.
Qed.
