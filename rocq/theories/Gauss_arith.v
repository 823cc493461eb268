(** * Proofs about [inv_mod_p] and [index_pivot]. *)
From Verif Require Import Base Lin Gauss_model.
From Coq Require Import Znumtheory.
Local Open Scope Z_scope.

(** ** The Euclid loop *)

(** Enough fuel: two iterations at least halve [|a|]. *)
Lemma mod_halving a b : a <> 0 -> b mod a <> 0 -> 2 * Z.abs (a mod (b mod a)) < Z.abs a.
Proof.
  intros Ha Hb. set (c := b mod a) in *.
  assert (Hc : 0 < c < a \/ a < c < 0).
  { unfold c in *. destruct (Z_lt_le_dec 0 a) as [H|H].
    - left. pose proof (Z.mod_pos_bound b a H). lia.
    - right. pose proof (Z.mod_neg_bound b a ltac:(lia)). lia. }
  pose proof (Z.div_mod a c Hb) as E.
  destruct Hc as [Hc|Hc].
  - pose proof (Z.mod_pos_bound a c ltac:(lia)).
    assert (1 <= a / c) by (apply Z.div_le_lower_bound; lia). nia.
  - pose proof (Z.mod_neg_bound a c ltac:(lia)).
    assert (1 <= a / c).
    { rewrite <- (Z.div_opp_opp a c Hb). apply Z.div_le_lower_bound; lia. }
    nia.
Qed.

Lemma inv_loop_fuel n a b x0 x1 : Z.abs a < 2 ^ Z.of_nat n ->
  exists r, inv_loop (S (2 * n)) a b x0 x1 = Ok r.
Proof.
  revert a b x0 x1. induction n as [|n IH]; intros a b x0 x1 H.
  - change (2 ^ Z.of_nat 0) with 1 in H. assert (a = 0) as -> by lia. simpl. eauto.
  - replace (S (2 * S n)) with (S (S (S (2 * n)))) by lia.
    rewrite Nat2Z.inj_succ, Z.pow_succ_r in H by lia.
    cbn [inv_loop]. destruct (Z.eqb_spec a 0) as [->|Ha]; [eauto|].
    destruct (Z.eqb_spec (b mod a) 0) as [Hb|Hb]; [eauto|].
    apply IH. pose proof (mod_halving a b Ha Hb). lia.
Qed.

Lemma inv_fuel_ok a b x0 x1 : exists r, inv_loop (inv_fuel a) a b x0 x1 = Ok r.
Proof.
  unfold inv_fuel. apply inv_loop_fuel.
  assert (0 <= Z.log2 (Z.abs a)) by apply Z.log2_nonneg.
  rewrite Z2Nat.id by lia.
  destruct (Z.eq_dec a 0) as [->|Ha]; [reflexivity|].
  pose proof (Z.log2_spec (Z.abs a) ltac:(lia)) as [_ Hl].
  unfold Z.succ in Hl. exact Hl.
Qed.

(** Bezout invariant and gcd, any signs. *)
Lemma inv_loop_bezout p a0 fuel : forall a b x0 x1 g x,
  cong p b (x0 * a0) -> cong p a (x1 * a0) ->
  inv_loop fuel a b x0 x1 = Ok (g, x) ->
  cong p g (x * a0) /\ Z.abs g = Z.gcd a b.
Proof.
  induction fuel as [|f IH]; intros a b x0 x1 g x Hb Ha; cbn [inv_loop]; [discriminate|].
  destruct (Z.eqb_spec a 0) as [->|Hn].
  - intros E; injection E as <- <-. split; auto.
  - intros E. apply IH in E; auto.
    + destruct E as [E1 E2]. split; auto. rewrite E2.
      rewrite Z.gcd_mod by auto. reflexivity.
    + rewrite Z.mod_eq by auto. generalize (b / a); intros q. rewrite Hb, Ha. apply cong_eq; ring.
Qed.

Lemma inv_loop_pos fuel : forall a b x0 x1 g x,
  0 <= a -> 0 < b -> inv_loop fuel a b x0 x1 = Ok (g, x) -> 0 < g.
Proof.
  induction fuel as [|f IH]; intros a b x0 x1 g x Ha Hb; cbn [inv_loop]; [discriminate|].
  destruct (Z.eqb_spec a 0) as [->|Hn].
  - intros E; injection E as <- <-. auto.
  - apply IH; [|lia]. apply Z.mod_pos_bound. lia.
Qed.

Lemma inv_loop_neg fuel : forall a b x0 x1 g x,
  a < 0 -> inv_loop fuel a b x0 x1 = Ok (g, x) -> g < 0.
Proof.
  induction fuel as [|f IH]; intros a b x0 x1 g x Ha; cbn [inv_loop]; [discriminate|].
  destruct (Z.eqb_spec a 0) as [->|Hn]; [lia|].
  destruct (Z.eq_dec (b mod a) 0) as [E|E].
  - rewrite E. destruct f; cbn [inv_loop Z.eqb]; [discriminate|].
    intros H; injection H as <- <-. auto.
  - apply IH. pose proof (Z.mod_neg_bound b a Ha). lia.
Qed.

(** Size of the Bezout coefficient. *)
Lemma inv_loop_range p fuel : forall a b x0 x1 g x,
  0 <= a -> 0 < b -> x0 * x1 <= 0 ->
  Z.abs x1 * b + Z.abs x0 * a = p -> Z.abs x0 <= p ->
  inv_loop fuel a b x0 x1 = Ok (g, x) -> Z.abs x <= p.
Proof.
  induction fuel as [|f IH]; intros a b x0 x1 g x Ha Hb Hs Hi Hx; cbn [inv_loop]; [discriminate|].
  destruct (Z.eqb_spec a 0) as [->|Hn].
  - intros E; injection E as <- <-. auto.
  - pose proof (Z.mod_pos_bound b a ltac:(lia)) as Hm.
    pose proof (Z.div_mod b a Hn) as Hd.
    assert (Hq : 0 <= b / a) by (apply Z.div_pos; lia).
    set (q := b / a) in *.
    assert (Habs : Z.abs (x0 - q * x1) = Z.abs x0 + q * Z.abs x1).
    { destruct (Z_le_gt_dec 0 x1); destruct (Z_le_gt_dec 0 x0); nia. }
    assert (0 <= q * (x1 * x1)) by nia.
    apply IH; nia.
Qed.

(** ** inv_mod_p *)
Lemma gcd_1_pos a : Z.abs a = 1 -> 0 < a -> a = 1.
Proof. lia. Qed.

Lemma inv_mod_p_spec a p : 0 < a -> 1 <= p ->
  (Z.gcd a p = 1 /\ ~ (p | a) -> exists x, inv_mod_p a p = Ok x /\ 1 <= x < p /\ (x * a) mod p = 1) /\
  (Z.gcd a p <> 1 \/ (p | a) -> inv_mod_p a p = Err ValueError).
Proof.
  intros Ha Hp. unfold inv_mod_p.
  destruct (Z.eqb_spec p 0); [lia|].
  destruct (Z.eqb_spec (a mod p) 0) as [E|E].
  - apply Z.mod_divide in E; auto. split; [tauto|auto].
  - assert (Hnd : ~ (p | a)) by (rewrite <- Z.mod_divide; auto).
    assert (Hp2 : 1 < p).
    { destruct (Z.eq_dec p 1) as [->|]; [|lia]. elim Hnd. apply Z.divide_1_l. }
    destruct (inv_fuel_ok a p 0 1) as [[g x] H]. rewrite H. cbn [bind].
    destruct (inv_loop_bezout p a (inv_fuel a) a p 0 1 g x) as [Hb Hg]; auto.
    { exists 1. ring. } { apply cong_eq; ring. }
    assert (Hpos : 0 < g) by (eapply inv_loop_pos; [| |exact H]; lia).
    assert (Hr : Z.abs x <= p).
    { eapply (inv_loop_range p); [| | | | |exact H]; lia. }
    split.
    + intros [Hgcd _]. assert (g = 1) as -> by lia. simpl.
      assert (Hc : cong p (x * a) 1) by (symmetry; auto).
      assert (Hx0 : x <> 0 /\ x <> p /\ x <> - p).
      { assert (Hnz : ~ (p | x)).
        { intros D. assert (C : cong p (x * a) 0).
          { apply cong0_divide. apply Z.divide_mul_l; auto. }
          rewrite Hc in C. apply cong0_small in C; lia. }
        repeat split; intros ->; apply Hnz.
        - apply Z.divide_0_r.
        - apply Z.divide_refl.
        - apply Z.divide_opp_r. apply Z.divide_refl. }
      assert (Hone : forall y, cong p (y * a) 1 -> (y * a) mod p = 1).
      { intros y Hy. apply cong_iff_mod in Hy; auto. rewrite Hy. apply Z.mod_small; lia. }
      destruct (Z.ltb_spec x 0).
      * exists (x + p). repeat split; try lia. apply Hone.
        rewrite <- Hc. exists a. ring.
      * exists x. repeat split; try lia. apply Hone; auto.
    + intros [Hgcd|Hd]; [|tauto]. destruct (Z.eqb_spec g 1) as [->|]; [lia|reflexivity].
Qed.

Lemma inv_mod_p_negative a p : a < 0 -> 1 <= p -> inv_mod_p a p = Err ValueError.
Proof.
  intros Ha Hp. unfold inv_mod_p.
  destruct (Z.eqb_spec p 0); [lia|].
  destruct (Z.eqb_spec (a mod p) 0); auto.
  destruct (inv_fuel_ok a p 0 1) as [[g x] H]. rewrite H. cbn [bind].
  pose proof (inv_loop_neg _ _ _ _ _ _ _ Ha H).
  destruct (Z.eqb_spec g 1); [lia|reflexivity].
Qed.

Lemma inv_mod_p_prime a p : prime p -> 0 < a -> ~ (p | a) ->
  exists x, inv_mod_p a p = Ok x /\ 1 <= x < p /\ (x * a) mod p = 1.
Proof.
  intros Hp Ha Hn. pose proof (prime_ge_2 p Hp).
  apply inv_mod_p_spec; try lia. split; auto.
  apply Zgcd_1_rel_prime. apply rel_prime_sym. apply prime_rel_prime; auto.
Qed.

(** A successful call always returns an inverse, whatever the arguments. *)
Lemma inv_mod_p_ok a p x : inv_mod_p a p = Ok x -> cong p (x * a) 1.
Proof.
  unfold inv_mod_p. destruct (Z.eqb_spec p 0); [discriminate|].
  destruct (Z.eqb_spec (a mod p) 0); [discriminate|].
  destruct (inv_loop (inv_fuel a) a p 0 1) as [[g y]|] eqn:E; [|discriminate]. cbn [bind].
  destruct (inv_loop_bezout p a (inv_fuel a) a p 0 1 g y) as [Hb Hg]; auto.
  { exists 1. ring. } { apply cong_eq; ring. }
  destruct (Z.eqb_spec g 1) as [->|]; [|discriminate]. simpl.
  intros H; injection H as <-.
  destruct (y <? 0).
  - rewrite Hb. exists a. ring.
  - symmetry; auto.
Qed.

(** Errors are never [OutOfFuel]; for p <> 0 they are always [ValueError]. *)
Lemma inv_mod_p_err a p e : inv_mod_p a p = Err e ->
  (p = 0 /\ e = ZeroDivisionError) \/ (p <> 0 /\ e = ValueError).
Proof.
  unfold inv_mod_p. destruct (Z.eqb_spec p 0).
  - intros H; injection H as <-; auto.
  - destruct (Z.eqb_spec (a mod p) 0).
    + intros H; injection H as <-; auto.
    + destruct (inv_fuel_ok a p 0 1) as [[g x] E]. rewrite E. cbn [bind].
      destruct (negb (g =? 1)); [|discriminate]. intros H; injection H as <-; auto.
Qed.

(** ** index_pivot *)

(** Specification of the pivot: last position holding a nonzero entry. *)
Definition last_nonzero (v : vec) (i : nat) : Prop :=
  (i < length v)%nat /\ vget v i <> 0 /\ forall j, (i < j)%nat -> vget v j = 0.

Lemma vget_out v i : (length v <= i)%nat -> vget v i = 0.
Proof. intros H. unfold vget. apply nth_overflow; auto. Qed.

Lemma index_pivot_from_spec v : forall i best,
  (forall j, vget v j = 0) /\ index_pivot_from i v best = best \/
  exists k, last_nonzero v k /\ index_pivot_from i v best = i + Z.of_nat k.
Proof.
  induction v as [|x v IH]; intros i best; simpl.
  - left. split; auto. intros j. destruct j; reflexivity.
  - destruct (IH (i + 1) (if x =? 0 then best else i)) as [[H0 E]|(k & (Hk & Hnz & Hz) & E)].
    + rewrite E. destruct (Z.eqb_spec x 0) as [->|Hx].
      * left. split; auto. intros [|j]; [reflexivity|apply H0].
      * right. exists 0%nat. split; [|lia]. split; [simpl; lia|]. split; auto.
        intros [|j] Hj; [lia|apply H0].
    + right. exists (S k). rewrite E. split; [|lia]. split; [simpl; lia|]. split; auto.
      intros [|j] Hj; [lia|]. apply Hz. lia.
Qed.

Lemma index_pivot_cases v :
  (forall j, vget v j = 0) /\ index_pivot v = -1 \/
  exists k, last_nonzero v k /\ index_pivot v = Z.of_nat k.
Proof.
  destruct (index_pivot_from_spec v 0 (-1)) as [H|(k & H & E)]; auto.
  right. exists k. split; auto.
Qed.

Lemma last_nonzero_unique v i j : last_nonzero v i -> last_nonzero v j -> i = j.
Proof.
  intros (Hi & Hi' & Hi'') (Hj & Hj' & Hj'').
  destruct (lt_eq_lt_dec i j) as [[H|H]|H]; auto; [elim Hj'|elim Hi']; auto.
Qed.

Lemma index_pivot_iff v k : index_pivot v = Z.of_nat k <-> last_nonzero v k.
Proof.
  destruct (index_pivot_cases v) as [[H E]|(j & H & E)]; rewrite E; split.
  - lia.
  - intros (_ & Hk & _). elim Hk; auto.
  - intros Hk. apply Nat2Z.inj in Hk. subst; auto.
  - intros Hk. rewrite (last_nonzero_unique v j k); auto.
Qed.

Lemma index_pivot_m1 v : index_pivot v = -1 <-> forall j, vget v j = 0.
Proof.
  destruct (index_pivot_cases v) as [[H E]|(j & H & E)]; rewrite E; split; auto; try lia.
  intros Hz. destruct H as (_ & Hj & _). elim Hj; auto.
Qed.

Lemma index_pivot_ge v : -1 <= index_pivot v.
Proof. destruct (index_pivot_cases v) as [[H E]|(j & H & E)]; lia. Qed.

Lemma vany_false v : vany v = false <-> forall j, vget v j = 0.
Proof.
  unfold vany. split.
  - intros H j. destruct (lt_dec j (length v)) as [Hj|Hj]; [|apply vget_out; lia].
    destruct (Z.eq_dec (vget v j) 0) as [E|E]; auto.
    assert (T : existsb (fun x => negb (x =? 0)) v = true); [|congruence].
    apply existsb_exists. exists (vget v j). split; [apply nth_In; auto|].
    destruct (Z.eqb_spec (vget v j) 0); auto.
  - intros H. destruct (existsb (fun x => negb (x =? 0)) v) eqn:E; auto.
    apply existsb_exists in E. destruct E as (x & Hx & Hx').
    apply In_nth with (d := 0) in Hx. destruct Hx as (j & Hj & Ej).
    specialize (H j). unfold vget in H. rewrite Ej in H. subst x. discriminate.
Qed.

Lemma vany_pivot v : vany v = false <-> index_pivot v = -1.
Proof. rewrite vany_false, index_pivot_m1. tauto. Qed.
