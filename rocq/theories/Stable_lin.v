(** * Dimensions of quotients, up to double negation

    Whether a vector lies in a space given by a property need not be decidable, but inequalities between natural numbers are;
    so bases exist up to double negation only, which is enough to compare numbers. *)
From Coq Require Import Znumtheory.
From Verif Require Import Base ListX Lin PH_lin Spec_PH Spec_Bars Bars.
Local Open Scope Z_scope.

Lemma nn_choice {B : Type} (d : B) n (R : nat -> B -> Prop) : (forall k, (k < n)%nat -> ~ ~ exists y, R k y) -> ~ ~ exists f, forall k, (k < n)%nat -> R k (f k).
Proof.
  induction n as [|n IH]; intros H K; [apply K; exists (fun _ => d); intros; lia|]. apply IH; [intros k Hk; apply H; lia|]. intros (f & F).
  apply (H n ltac:(lia)). intros (y & Y). apply K. exists (fun k => if Nat.eqb k n then y else f k). intros k Hk. destruct (Nat.eqb_spec k n) as [->|]; [exact Y|apply F; lia].
Qed.

Lemma nn_le (n m : nat) : ~ ~ (n <= m)%nat -> (n <= m)%nat.
Proof. intros H. destruct (le_lt_dec n m) as [|L]; [assumption|]. exfalso. apply H. lia. Qed.

Section Weak.
Context {X : Type}.
Variable p : Z.
Hypothesis Hp : prime p.

(** Vectors of [Zs], independent modulo [Bs]. *)
Definition indep (Zs Bs : (X -> Z) -> Prop) (n : nat) (g : nat -> X -> Z) : Prop :=
  (forall k, (k < n)%nat -> Zs (g k)) /\ forall c : nat -> Z, Bs (fun i => Zsum n (fun k => c k * g k i)) -> forall k, (k < n)%nat -> c k mod p = 0.
(** They span [Zs] modulo [Bs], up to double negation. *)
Definition wspan (Zs Bs : (X -> Z) -> Prop) (n : nat) (g : nat -> X -> Z) : Prop :=
  forall v, Zs v -> ~ ~ exists c : nat -> Z, Bs (fun i => v i - Zsum n (fun k => c k * g k i)).
Definition wbasis (Zs Bs : (X -> Z) -> Prop) (n : nat) (g : nat -> X -> Z) : Prop := indep Zs Bs n g /\ wspan Zs Bs n g.

Lemma basis_weak Zs Bs n g : quotient_basis p Zs Bs n g (fun _ => True) -> wbasis Zs Bs n g.
Proof.
  intros (G1 & G2 & G3). split; [split; [auto|]|].
  - intros c H. apply (G3 c); [tauto|exact H].
  - intros v Hv K. destruct (G2 v Hv) as (c & _ & H). apply K. exists c. exact H.
Qed.

Lemma sub_two (S : (X -> Z) -> Prop) u v w a b : subspace p S -> S u -> S v -> (forall i, cong p (w i) (a * u i + b * v i)) -> S w.
Proof.
  intros HS Hu Hv E. apply (HS 2%nat (fun k => if Nat.eqb k 0 then a else b) (fun k => if Nat.eqb k 0 then u else v)).
  - intros k _. destruct (Nat.eqb k 0); auto.
  - intros i. apply (mod_cong p Hp). cbn. rewrite E. apply cong_eq. ring.
Qed.

Lemma sub_zero (S : (X -> Z) -> Prop) w : subspace p S -> (forall i, cong p (w i) 0) -> S w.
Proof. intros HS E. apply (HS 0%nat (fun _ => 0) (fun _ _ => 0)); [intros; lia|]. intros i. apply (mod_cong p Hp). cbn. apply E. Qed.

(** Independent vectors are at most as many as generators. *)
Lemma indep_le (Z1 B1 Z2 B2 : (X -> Z) -> Prop) n m g h : subspace p B1 -> (forall v, Z1 v -> Z2 v) -> (forall v, B2 v -> B1 v) -> indep Z1 B1 n g -> wspan Z2 B2 m h -> (n <= m)%nat.
Proof.
  intros HB HZ HL [G1 G3] H2. apply nn_le. intros K.
  apply (nn_choice (fun _ : nat => 0) n (fun k a => B1 (fun i => g k i - Zsum m (fun j => a j * h j i)))).
  { intros k Hk N. apply (H2 (g k) (HZ _ (G1 k Hk))). intros (c & C). apply N. exists c. apply HL, C. }
  intros (a & Ha). apply K. destruct (le_lt_dec n m) as [|Hlt]; [assumption|]. exfalso.
  destruct (kernel_exists p Hp m n (fun i k => a k i) Hlt) as (c & (k & Hk & Hne) & Hker).
  apply Hne. apply (mod_cong0 p Hp). apply (G3 c); auto.
  apply (HB n c (fun k i => g k i - Zsum m (fun j => a k j * h j i))); auto.
  intros i. apply (mod_cong p Hp). rewrite (Zsum_ext n (fun k => c k * (g k i - _)) (fun k => c k * g k i - Zsum m (fun j => c k * a k j * h j i))).
  - rewrite Zsum_sub, Zsum_swap. rewrite (Zsum_cong0 p m (fun j => Zsum n _)); [apply cong_eq; ring|].
    intros j Hj. rewrite Zsum_scale_r. rewrite (Hker j Hj). apply cong_eq. ring.
  - intros l Hl. rewrite Z.mul_sub_distr_l, <- Zsum_scale. f_equal. apply Zsum_ext. intros; ring.
Qed.

Lemma indep_add (Zs Bs : (X -> Z) -> Prop) n g v : subspace p Bs -> indep Zs Bs n g -> Zs v -> (~ exists c : nat -> Z, Bs (fun i => v i - Zsum n (fun k => c k * g k i))) ->
  indep Zs Bs (S n) (fun k => if Nat.eqb k n then v else g k).
Proof.
  intros HB [G1 G3] Hv C. split; [intros k Hk; destruct (Nat.eqb_spec k n) as [->|]; [exact Hv|apply G1; lia]|]. intros c Hc. cbn [Zsum] in Hc. rewrite Nat.eqb_refl in Hc.
  assert (Hc' : Bs (fun i => Zsum n (fun k => c k * g k i) + c n * v i)).
  { refine (sub_ext p _ _ _ HB _ Hc). intros i. cbn beta. f_equal. apply Zsum_ext. intros j Hj. destruct (Nat.eqb_spec j n); [lia|reflexivity]. }
  destruct (cong_dec p (c n) 0) as [Z0|NZ].
  - intros j Hj. destruct (Nat.eq_dec j n) as [->|]; [apply (mod_cong0 p Hp); exact Z0|]. apply (G3 c); [|lia].
    refine (sub_two Bs _ _ _ 1 0 HB Hc' Hc' _). intros i. cbn beta. rewrite Z0. apply cong_eq. ring.
  - exfalso. destruct (inv_exists p (c n) Hp NZ) as (b & Hb). apply C. exists (fun k => - b * c k). refine (sub_two Bs _ _ _ b 0 HB Hc' Hc' _). intros i. cbn beta.
    rewrite (Zsum_ext n (fun k => - b * c k * g k i) (fun k => - b * (c k * g k i))) by (intros; ring). rewrite Zsum_scale.
    transitivity (b * c n * v i + b * Zsum n (fun k => c k * g k i)); [rewrite Hb; apply cong_eq; ring|apply cong_eq; ring].
Qed.

(** Bases exist if the number of independent vectors is bounded. *)
Lemma wbasis_exists (Zs Bs : (X -> Z) -> Prop) N : subspace p Bs -> (forall n g, indep Zs Bs n g -> (n <= N)%nat) -> ~ ~ exists n g, wbasis Zs Bs n g.
Proof.
  intros HB HN K.
  assert (R : forall k n g, (S N = n + k)%nat -> ~ indep Zs Bs n g).
  2: { apply (R (S N) 0%nat (fun _ _ => 0) eq_refl). split; intros; lia. }
  intros k. induction k as [|k IH]; intros n g E G; [apply HN in G; lia|].
  apply K. exists n, g. split; [exact G|]. intros v Hv C. exact (IH (S n) _ ltac:(lia) (indep_add Zs Bs n g v HB G Hv C)).
Qed.

(** Two families in a row. *)
Definition cat {A} (n : nat) (g h : nat -> A) (k : nat) : A := if Nat.ltb k n then g k else h (k - n)%nat.
Lemma cat_sum n m c (g h : nat -> X -> Z) i : Zsum (n + m) (fun k => c k * cat n g h k i) = Zsum n (fun k => c k * g k i) + Zsum m (fun k => c (n + k)%nat * h k i).
Proof.
  rewrite Zsum_app. f_equal; apply Zsum_ext; intros k Hk; unfold cat.
  - destruct (Nat.ltb_spec k n); [reflexivity|lia].
  - destruct (Nat.ltb_spec (n + k) n); [lia|]. do 2 f_equal. lia.
Qed.

(** The dimension grows less with the cycles when there are more boundaries. *)
Lemma quad (Z1 Z2 B1 B2 : (X -> Z) -> Prop) n11 n12 n21 n22 g11 g12 g21 g22 : subspace p Z1 -> subspace p Z2 -> subspace p B1 -> subspace p B2 ->
  (forall v, Z1 v -> Z2 v) -> (forall v, B1 v -> B2 v) ->
  wbasis Z1 B1 n11 g11 -> wbasis Z1 B2 n12 g12 -> wbasis Z2 B1 n21 g21 -> wbasis Z2 B2 n22 g22 -> (n22 + n11 <= n21 + n12)%nat.
Proof.
  intros HZ1 HZ2 HB1 HB2 IZ IB [G11 _] [_ S12] [_ S21] [G22 S22].
  set (W := fun v => exists z, Z1 z /\ B2 (fun i => v i - z i)).
  assert (HW : subspace p W).
  { intros n c b v Hb E.
    destruct (IK_lin.fin_choose (fun _ : X => 0) n (fun k z => Z1 z /\ B2 (fun i => b k i - z i)) Hb) as (z & Hz).
    exists (fun i => Zsum n (fun k => c k * z k i)). split; [apply (HZ1 n c z); [intros k Hk; apply Hz; exact Hk|reflexivity]|].
    apply (HB2 n c (fun k i => b k i - z k i)); [intros k Hk; apply Hz; exact Hk|]. intros i. apply (mod_cong p Hp). specialize (E i). apply (mod_cong p Hp) in E. rewrite E.
    rewrite <- Zsum_sub. apply cong_eq, Zsum_ext. intros; ring. }
  assert (BW : forall v, B2 v -> W v).
  { intros v Hv. exists (fun _ => 0). split; [apply sub_zero; [exact HZ1|reflexivity]|]. refine (sub_ext p _ _ _ HB2 _ Hv). intros i. ring. }
  apply nn_le. intros K. apply (wbasis_exists Z2 W n22 HW).
  { intros n g G. exact (indep_le Z2 W Z2 B2 n n22 g g22 HW (fun v H => H) BW G S22). }
  intros (k & h & [H1 H3] & H2). apply K.
  assert (L1 : (n22 <= k + n12)%nat).
  { apply (indep_le Z2 B2 Z2 B2 n22 (k + n12) g22 (cat k h g12) HB2 (fun v H => H) (fun v H => H) G22). intros v Hv N. apply (H2 v Hv). intros (c & z & Hz & Hb).
    apply (S12 z Hz). intros (c' & Hc'). apply N. exists (cat k c c'). refine (sub_two B2 _ _ _ 1 1 HB2 Hb Hc' _). intros i. cbn beta. rewrite cat_sum.
    rewrite (Zsum_ext k (fun j => cat k c c' j * h j i) (fun j => c j * h j i)) by (intros j Hj; unfold cat; destruct (Nat.ltb_spec j k); [reflexivity|lia]).
    rewrite (Zsum_ext n12 (fun j => cat k c c' (k + j) * g12 j i) (fun j => c' j * g12 j i)).
    2: { intros j Hj. unfold cat. destruct (Nat.ltb_spec (k + j) k); [lia|]. do 2 f_equal. lia. }
    apply cong_eq. ring. }
  assert (L2 : (n11 + k <= n21)%nat).
  { apply (indep_le Z2 B1 Z2 B1 (n11 + k) n21 (cat n11 g11 h) g21 HB1 (fun v H => H) (fun v H => H)); [|exact S21]. destruct G11 as [G1 G3]. split.
    - intros j Hj. unfold cat. destruct (Nat.ltb_spec j n11); [apply IZ, G1; assumption|apply H1; lia].
    - intros c Hc.
      assert (Hc' : B1 (fun i => Zsum n11 (fun k => c k * g11 k i) + Zsum k (fun j => c (n11 + j)%nat * h j i))) by (refine (sub_ext p _ _ _ HB1 _ Hc); intros i; apply cat_sum).
      assert (C2 : forall j, (j < k)%nat -> c (n11 + j)%nat mod p = 0).
      { apply (H3 (fun j => c (n11 + j)%nat)). exists (fun i => Zsum n11 (fun k => - c k * g11 k i)). split; [apply (HZ1 n11 (fun k => - c k) g11); [exact G1|reflexivity]|].
        refine (sub_ext p _ _ _ HB2 _ (IB _ Hc')). intros i. cbn beta. rewrite (Zsum_ext n11 (fun k => - c k * g11 k i) (fun k => - (c k * g11 k i))) by (intros; ring). rewrite Zsum_opp. ring. }
      assert (C1 : forall j, (j < n11)%nat -> c j mod p = 0).
      { apply (G3 c). refine (sub_two B1 _ _ _ 1 0 HB1 Hc' Hc' _). intros i. cbn beta. rewrite (Zsum_cong0 p k); [apply cong_eq; ring|].
        intros j Hj. specialize (C2 j Hj). apply (mod_cong0 p Hp) in C2. rewrite C2. apply cong_eq. ring. }
      intros j Hj. destruct (le_lt_dec n11 j) as [Hge|Hlt]; [replace j with (n11 + (j - n11))%nat by lia; apply C2; lia|apply C1; exact Hlt]. }
  lia.
Qed.
End Weak.
