(** * Lin: elementary linear algebra over Z modulo p, on functions [nat -> Z]. *)
From Verif Require Import Base.
From Coq Require Import Znumtheory Setoid Morphisms.
Local Open Scope Z_scope.

(** ** Congruence modulo [p] *)
Definition cong (p a b : Z) : Prop := (p | a - b).

Lemma cong_eq p a b : a = b -> cong p a b.
Proof. intros ->. exists 0. ring. Qed.

#[export] Instance cong_equiv p : Equivalence (cong p).
Proof.
  split.
  - intros a. apply cong_eq; reflexivity.
  - intros a b [k H]. exists (- k). lia.
  - intros a b c [k H] [l H']. exists (k + l). lia.
Qed.

#[export] Instance cong_add p : Proper (cong p ==> cong p ==> cong p) Z.add.
Proof. intros a a' [k H] b b' [l H']. exists (k + l). lia. Qed.
#[export] Instance cong_sub p : Proper (cong p ==> cong p ==> cong p) Z.sub.
Proof. intros a a' [k H] b b' [l H']. exists (k - l). lia. Qed.
#[export] Instance cong_opp p : Proper (cong p ==> cong p) Z.opp.
Proof. intros a a' [k H]. exists (- k). lia. Qed.
#[export] Instance cong_mul p : Proper (cong p ==> cong p ==> cong p) Z.mul.
Proof.
  intros a a' [k H] b b' [l H']. exists (k * b + a' * l).
  replace (a * b - a' * b') with ((a - a') * b + a' * (b - b')) by ring.
  rewrite H, H'. ring.
Qed.

Lemma cong_mod p a : cong p (a mod p) a.
Proof.
  destruct (Z.eq_dec p 0) as [->|Hp].
  - rewrite Zmod_0_r. reflexivity.
  - exists (- (a / p)). pose proof (Z.div_mod a p Hp). lia.
Qed.

Lemma cong_iff_mod p a b : p <> 0 -> cong p a b <-> a mod p = b mod p.
Proof.
  intros Hp; split.
  - intros [k H]. replace a with (b + k * p) by lia. apply Z_mod_plus_full.
  - intros H. rewrite <- (cong_mod p a), <- (cong_mod p b), H. reflexivity.
Qed.

Lemma cong_small p a b : 0 <= a < p -> 0 <= b < p -> cong p a b -> a = b.
Proof.
  intros Ha Hb H. apply cong_iff_mod in H; [|lia].
  rewrite !Z.mod_small in H by lia. exact H.
Qed.

Lemma cong0_small p a : 0 <= a < p -> cong p a 0 -> a = 0.
Proof. intros Ha H. apply (cong_small p); auto; lia. Qed.

Lemma cong_dec p a b : {cong p a b} + {~ cong p a b}.
Proof. unfold cong. apply Zdivide_dec. Qed.

Lemma cong0_divide p a : cong p a 0 <-> (p | a).
Proof. unfold cong. rewrite Z.sub_0_r. tauto. Qed.

Lemma cong0_mul p a b : prime p -> cong p (a * b) 0 -> cong p a 0 \/ cong p b 0.
Proof. intros Hp. rewrite !cong0_divide. apply prime_mult; auto. Qed.

Lemma cong_cancel p a b c : prime p -> ~ cong p c 0 -> cong p (c * a) (c * b) -> cong p a b.
Proof.
  intros Hp Hc H.
  assert (H0 : cong p (c * (a - b)) 0).
  { replace (c * (a - b)) with (c * a - c * b) by ring. rewrite H. apply cong_eq; ring. }
  apply cong0_mul in H0; auto. destruct H0 as [H0|H0]; [tauto|].
  replace a with ((a - b) + b) by ring. rewrite H0. apply cong_eq; ring.
Qed.

(** Inverses modulo a prime. *)
Lemma inv_exists p a : prime p -> ~ cong p a 0 -> exists b, cong p (b * a) 1.
Proof.
  intros Hp Ha. rewrite cong0_divide in Ha.
  assert (Hr : rel_prime a p).
  { apply rel_prime_sym. apply prime_rel_prime; auto. }
  apply rel_prime_bezout in Hr. destruct Hr as [u v H].
  exists u. exists (- v). lia.
Qed.

Ltac congr := repeat match goal with H : cong _ _ _ |- _ => rewrite H end; apply cong_eq; ring.

(** ** Finite sums *)
Lemma Zsum_ext n f g : (forall k, (k < n)%nat -> f k = g k) -> Zsum n f = Zsum n g.
Proof.
  induction n as [|n IH]; simpl; intros H; auto.
  rewrite IH, H by (intros; try apply H; lia). reflexivity.
Qed.

Lemma Zsum_cong p n f g : (forall k, (k < n)%nat -> cong p (f k) (g k)) -> cong p (Zsum n f) (Zsum n g).
Proof.
  induction n as [|n IH]; simpl; intros H; [reflexivity|].
  rewrite IH by (intros; apply H; lia). rewrite (H n) by lia. reflexivity.
Qed.

Lemma Zsum_add n f g : Zsum n (fun k => f k + g k) = Zsum n f + Zsum n g.
Proof. induction n as [|n IH]; simpl; [ring|rewrite IH; ring]. Qed.

Lemma Zsum_scale n c f : Zsum n (fun k => c * f k) = c * Zsum n f.
Proof. induction n as [|n IH]; simpl; [ring|rewrite IH; ring]. Qed.

Lemma Zsum_scale_r n c f : Zsum n (fun k => f k * c) = Zsum n f * c.
Proof. induction n as [|n IH]; simpl; [ring|rewrite IH; ring]. Qed.

Lemma Zsum_opp n f : Zsum n (fun k => - f k) = - Zsum n f.
Proof. induction n as [|n IH]; simpl; [ring|rewrite IH; ring]. Qed.

Lemma Zsum_sub n f g : Zsum n (fun k => f k - g k) = Zsum n f - Zsum n g.
Proof. induction n as [|n IH]; simpl; [ring|rewrite IH; ring]. Qed.

Lemma Zsum_0 n f : (forall k, (k < n)%nat -> f k = 0) -> Zsum n f = 0.
Proof.
  induction n as [|n IH]; simpl; intros H; auto.
  rewrite IH, (H n) by (intros; try apply H; lia). reflexivity.
Qed.

Lemma Zsum_cong0 p n f : (forall k, (k < n)%nat -> cong p (f k) 0) -> cong p (Zsum n f) 0.
Proof.
  intros H. rewrite (Zsum_cong p n f (fun _ => 0)); auto.
  rewrite Zsum_0; auto. reflexivity.
Qed.

Lemma Zsum_single n k f : (k < n)%nat -> (forall l, (l < n)%nat -> l <> k -> f l = 0) -> Zsum n f = f k.
Proof.
  induction n as [|n IH]; simpl; intros Hk H; [lia|].
  destruct (Nat.eq_dec k n) as [->|Hn].
  - rewrite Zsum_0; [ring|]. intros l Hl; apply H; lia.
  - rewrite IH, (H n) by (intros; try apply H; lia). ring.
Qed.

Lemma Zsum_cong_single p n k f : (k < n)%nat ->
  (forall l, (l < n)%nat -> l <> k -> cong p (f l) 0) -> cong p (Zsum n f) (f k).
Proof.
  intros Hk H.
  rewrite (Zsum_cong p n f (fun l => if Nat.eqb l k then f k else 0)).
  - rewrite (Zsum_single n k) by (auto; intros l Hl Hn; apply Nat.eqb_neq in Hn; now rewrite Hn).
    rewrite Nat.eqb_refl. reflexivity.
  - intros l Hl. destruct (Nat.eqb_spec l k) as [->|Hn]; [reflexivity|auto].
Qed.

Lemma Zsum_swap n m f : Zsum n (fun i => Zsum m (fun j => f i j)) = Zsum m (fun j => Zsum n (fun i => f i j)).
Proof.
  induction n as [|n IH]; simpl.
  - symmetry. apply Zsum_0; auto.
  - rewrite IH, <- Zsum_add. reflexivity.
Qed.

Lemma Zsum_app n m f : Zsum (n + m) f = Zsum n f + Zsum m (fun k => f (n + k)%nat).
Proof.
  induction m as [|m IH]; simpl.
  - rewrite Nat.add_0_r; ring.
  - rewrite Nat.add_succ_r. simpl. rewrite IH. ring.
Qed.

Lemma Zsum_trunc n m f : (m <= n)%nat -> (forall k, (m <= k < n)%nat -> f k = 0) -> Zsum n f = Zsum m f.
Proof.
  intros Hm H. replace n with (m + (n - m))%nat by lia.
  rewrite Zsum_app, (Zsum_0 (n - m)); [ring|]. intros k Hk; apply H; lia.
Qed.

Lemma Zsum_cong_trunc p n m f : (m <= n)%nat -> (forall k, (m <= k < n)%nat -> cong p (f k) 0) ->
  cong p (Zsum n f) (Zsum m f).
Proof.
  intros Hm H. replace n with (m + (n - m))%nat by lia.
  rewrite Zsum_app, (Zsum_cong0 p (n - m)); [apply cong_eq; ring|]. intros k Hk; apply H; lia.
Qed.

(** ** Vectors as functions, linear combinations, spans *)
Definition fvec := nat -> Z.
Definition veq (p : Z) (u v : fvec) : Prop := forall i, cong p (u i) (v i).

#[export] Instance veq_equiv p : Equivalence (veq p).
Proof.
  split.
  - intros u i; reflexivity.
  - intros u v H i; symmetry; auto.
  - intros u v w H H' i; etransitivity; eauto.
Qed.

Definition fzero : fvec := fun _ => 0.
Definition fadd (u v : fvec) : fvec := fun i => u i + v i.
Definition fscale (a : Z) (u : fvec) : fvec := fun i => a * u i.
Definition funit (k : nat) : fvec := fun i => if Nat.eqb i k then 1 else 0.

(** Linear combination [c 0 * V 0 + ... + c (n-1) * V (n-1)]. *)
Definition lc (n : nat) (c : nat -> Z) (V : nat -> fvec) : fvec :=
  fun i => Zsum n (fun k => c k * V k i).

(** Span modulo [p] of a set of vectors. *)
Inductive span (p : Z) (S : fvec -> Prop) : fvec -> Prop :=
| span_0 v : veq p v fzero -> span p S v
| span_step u v w a : S u -> span p S v -> veq p w (fadd (fscale a u) v) -> span p S w.

Section Span.
Variable p : Z.

Lemma span_veq (S : fvec -> Prop) u v : veq p u v -> span p S u -> span p S v.
Proof.
  intros E H. destruct H as [u H|x y u a Hx Hy H].
  - apply span_0. rewrite <- E. exact H.
  - eapply span_step; eauto. rewrite <- E. exact H.
Qed.

Lemma span_in (S : fvec -> Prop) u : S u -> span p S u.
Proof.
  intros H. apply (span_step p S u fzero u 1); auto.
  - apply span_0. reflexivity.
  - intros i. unfold fadd, fscale, fzero. apply cong_eq; ring.
Qed.

Lemma span_in_veq (S : fvec -> Prop) u v : S u -> veq p u v -> span p S v.
Proof. intros H E. apply (span_veq S u v E). apply span_in; auto. Qed.

Lemma span_add (S : fvec -> Prop) u v : span p S u -> span p S v -> span p S (fadd u v).
Proof.
  intros Hu Hv. induction Hu as [u H|x y u a Hx Hy IH H].
  - apply (span_veq S v); auto. intros i. unfold fadd. rewrite (H i). unfold fzero. apply cong_eq; ring.
  - apply (span_step p S x (fadd y v) _ a); auto.
    intros i. specialize (H i). unfold fadd, fscale in *. rewrite H. apply cong_eq; ring.
Qed.

Lemma span_scale (S : fvec -> Prop) a u : span p S u -> span p S (fscale a u).
Proof.
  intros Hu. induction Hu as [u H|x y u b Hx Hy IH H].
  - apply span_0. intros i. unfold fscale. rewrite (H i). unfold fzero. apply cong_eq; ring.
  - apply (span_step p S x (fscale a y) _ (a * b)); auto.
    intros i. specialize (H i). unfold fadd, fscale in *. rewrite H. apply cong_eq; ring.
Qed.

Lemma span_comb (S : fvec -> Prop) a u b v w : span p S u -> span p S v ->
  (forall i, cong p (w i) (a * u i + b * v i)) -> span p S w.
Proof.
  intros Hu Hv H. apply (span_veq S (fadd (fscale a u) (fscale b v))).
  - intros i. rewrite (H i). reflexivity.
  - apply span_add; apply span_scale; auto.
Qed.

Lemma span_incl (S S' : fvec -> Prop) v : (forall u, S u -> span p S' u) -> span p S v -> span p S' v.
Proof.
  intros HS H. induction H as [v H|u v w a Hu Hv IH H].
  - apply span_0; auto.
  - apply (span_veq S' (fadd (fscale a u) v)); [symmetry; auto|].
    apply span_add; auto. apply span_scale; auto.
Qed.

Lemma span_mono (S S' : fvec -> Prop) v : (forall u, S u -> S' u) -> span p S v -> span p S' v.
Proof. intros H. apply span_incl. intros u Hu. apply span_in; auto. Qed.

(** A set closed under combinations and containing the generators contains the span. *)
Lemma span_ind_closed (S : fvec -> Prop) (P : fvec -> Prop) v :
  (forall u, veq p u fzero -> P u) ->
  (forall u v w a, P u -> P v -> veq p w (fadd (fscale a u) v) -> P w) ->
  (forall u, S u -> P u) -> span p S v -> P v.
Proof.
  intros H0 Ha HS H. induction H; eauto.
Qed.

(** Families: vectors [V k] for [k < n] with [P k = true]. *)
Definition fam (n : nat) (P : nat -> bool) (V : nat -> fvec) : fvec -> Prop :=
  fun u => exists k, (k < n)%nat /\ P k = true /\ u = V k.

Lemma lc_add n c c' V i : lc n (fun k => c k + c' k) V i = lc n c V i + lc n c' V i.
Proof. unfold lc. rewrite <- Zsum_add. apply Zsum_ext. intros; ring. Qed.

Lemma lc_scale n a c V i : lc n (fun k => a * c k) V i = a * lc n c V i.
Proof. unfold lc. rewrite <- Zsum_scale. apply Zsum_ext. intros; ring. Qed.

Lemma lc_unit n k V i : (k < n)%nat -> lc n (funit k) V i = V k i.
Proof.
  intros Hk. unfold lc. rewrite (Zsum_single n k); auto.
  - unfold funit. rewrite Nat.eqb_refl. ring.
  - intros l Hl Hn. unfold funit. apply Nat.eqb_neq in Hn. rewrite Hn. ring.
Qed.

Lemma lc_funit n c i : (i < n)%nat -> lc n c funit i = c i.
Proof.
  intros Hi. unfold lc. rewrite (Zsum_single n i); auto.
  - unfold funit. rewrite Nat.eqb_refl. ring.
  - intros l Hl Hn. unfold funit. assert (E : Nat.eqb i l = false) by (apply Nat.eqb_neq; auto).
    rewrite E; ring.
Qed.

Lemma lc_in_span n (P : nat -> bool) c V :
  (forall k, (k < n)%nat -> P k = false -> cong p (c k) 0) -> span p (fam n P V) (lc n c V).
Proof.
  intros H.
  assert (G : forall m, (m <= n)%nat -> span p (fam n P V) (lc m c V)).
  { induction m as [|m IH]; intros Hm.
    - apply span_0. intros i. reflexivity.
    - destruct (P m) eqn:E.
      + apply (span_step p _ (V m) (lc m c V) _ (c m)).
        * exists m. repeat split; auto; lia.
        * apply IH; lia.
        * intros i. unfold fadd, fscale, lc. simpl. apply cong_eq; ring.
      + apply (span_veq _ (lc m c V)); [|apply IH; lia].
        intros i. unfold lc. simpl. rewrite (H m) by (auto; lia). apply cong_eq; ring. }
  apply G; lia.
Qed.

Lemma span_lc n (P : nat -> bool) V v : span p (fam n P V) v ->
  exists c, (forall k, P k = false \/ (n <= k)%nat -> c k = 0) /\ veq p v (lc n c V).
Proof.
  intros H. induction H as [v H|u v w a Hu Hv IH H].
  - exists (fun _ => 0). split; auto.
    intros i. rewrite (H i). unfold lc, fzero. rewrite Zsum_0; [reflexivity|intros; ring].
  - destruct Hu as (k & Hk & HP & ->). destruct IH as (c & Hc & E).
    exists (fun l => a * funit k l + c l). split.
    + intros l Hl. unfold funit. destruct (Nat.eqb_spec l k) as [->|Hn].
      * destruct Hl as [Hl|Hl]; [congruence|lia].
      * rewrite (Hc l Hl). ring.
    + intros i. rewrite (H i). unfold fadd, fscale. rewrite (E i).
      rewrite lc_add, lc_scale, lc_unit by auto. reflexivity.
Qed.

(** ** Pivots *)
Definition is_piv (v : fvec) (i : nat) : Prop :=
  ~ cong p (v i) 0 /\ forall j, (i < j)%nat -> cong p (v j) 0.

Lemma is_piv_unique v i j : is_piv v i -> is_piv v j -> i = j.
Proof.
  intros [Hi Hi'] [Hj Hj'].
  destruct (lt_eq_lt_dec i j) as [[H|H]|H]; auto.
  - elim Hj; auto.
  - elim Hi; auto.
Qed.

Lemma is_piv_veq u v i : veq p u v -> is_piv u i -> is_piv v i.
Proof.
  intros E [H H']. split.
  - rewrite <- (E i). auto.
  - intros j Hj. rewrite <- (E j). auto.
Qed.

(** A vector vanishing from [n] on is zero or has a pivot below [n]. *)
Lemma piv_or_zero n v : (forall i, (n <= i)%nat -> cong p (v i) 0) ->
  veq p v fzero \/ exists i, (i < n)%nat /\ is_piv v i.
Proof.
  induction n as [|n IH]; intros H.
  - left. intros i. apply H; lia.
  - destruct (cong_dec p (v n) 0) as [E|E].
    + destruct IH as [IH|(i & Hi & IH)]; auto.
      * intros i Hi. destruct (Nat.eq_dec i n) as [->|]; auto. apply H; lia.
      * right. exists i. split; auto.
    + right. exists n. repeat split; auto.
Qed.

Hypothesis Hp : prime p.

Lemma prime_1_not_0 : ~ cong p 1 0.
Proof.
  rewrite cong0_divide. intros H. pose proof (prime_ge_2 p Hp). apply Z.divide_pos_le in H; lia.
Qed.

Lemma funit_piv k : is_piv (funit k) k.
Proof.
  split; unfold funit.
  - rewrite Nat.eqb_refl. apply prime_1_not_0.
  - intros j Hj. assert (E : Nat.eqb j k = false) by (apply Nat.eqb_neq; lia). rewrite E; reflexivity.
Qed.

(** Distinct pivots imply linear independence. *)
Lemma piv_indep n (V : nat -> fvec) (pv : nat -> nat) c :
  (forall k, (k < n)%nat -> ~ cong p (c k) 0 -> is_piv (V k) (pv k)) ->
  (forall k l, (k < n)%nat -> (l < n)%nat -> ~ cong p (c k) 0 -> ~ cong p (c l) 0 -> pv k = pv l -> k = l) ->
  veq p (lc n c V) fzero ->
  forall k, (k < n)%nat -> cong p (c k) 0.
Proof.
  intros HV Hd Hz.
  assert (HB : exists B, forall k, (k < n)%nat -> (pv k < B)%nat).
  { clear. induction n as [|n [B IH]].
    - exists 0%nat. intros; lia.
    - exists (Nat.max B (S (pv n))). intros k Hk. destruct (Nat.eq_dec k n) as [->|]; [lia|].
      specialize (IH k ltac:(lia)). lia. }
  destruct HB as [B HB].
  assert (G : forall d k, (k < n)%nat -> (B <= pv k + d)%nat -> cong p (c k) 0).
  { induction d as [|d IH]; intros k Hk Hd'.
    - specialize (HB k Hk). lia.
    - destruct (cong_dec p (c k) 0) as [|Hc]; auto. exfalso.
      assert (E : cong p (lc n c V (pv k)) (c k * V k (pv k))).
      { unfold lc. apply (Zsum_cong_single p n k (fun l => c l * V l (pv k))); auto.
        intros l Hl Hn. destruct (cong_dec p (c l) 0) as [E|E]; [rewrite E; apply cong_eq; ring|].
        destruct (lt_eq_lt_dec (pv k) (pv l)) as [[H|H]|H].
        - rewrite (IH l Hl) by lia. apply cong_eq; ring.
        - elim Hn. symmetry. apply Hd; auto.
        - destruct (HV l Hl E) as [_ H']. rewrite (H' (pv k) H). apply cong_eq; ring. }
      rewrite (Hz (pv k)) in E. symmetry in E. apply cong0_mul in E; auto.
      destruct (HV k Hk Hc) as [H _]. tauto. }
  intros k Hk. apply (G B k Hk). lia.
Qed.

(** A nonzero vector in the span of a family with distinct pivots has one of them as pivot. *)
Lemma piv_in_span n (P : nat -> bool) (V : nat -> fvec) (pv : nat -> nat) v x :
  (forall k, (k < n)%nat -> P k = true -> is_piv (V k) (pv k)) ->
  (forall k l, (k < n)%nat -> (l < n)%nat -> P k = true -> P l = true -> pv k = pv l -> k = l) ->
  span p (fam n P V) v -> is_piv v x ->
  exists k, (k < n)%nat /\ P k = true /\ pv k = x.
Proof.
  intros HV Hd Hs Hx.
  apply span_lc in Hs. destruct Hs as (c & Hc & E).
  destruct (existsb (fun k => P k && Nat.eqb (pv k) x) (seq 0 n)) eqn:Ex.
  - apply existsb_exists in Ex. destruct Ex as (k & Hk & Hk').
    apply in_seq in Hk. apply andb_prop in Hk'. destruct Hk' as [H1 H2].
    apply Nat.eqb_eq in H2. exists k. repeat split; auto; lia.
  - exfalso.
    assert (Hno : forall k, (k < n)%nat -> P k = true -> pv k <> x).
    { intros k Hk HP Hx'. assert (T : existsb (fun k => P k && Nat.eqb (pv k) x) (seq 0 n) = true).
      { apply existsb_exists. exists k. split; [apply in_seq; lia|]. rewrite HP, Hx', Nat.eqb_refl. reflexivity. }
      congruence. }
    (* extend the family by -v at index n *)
    set (V' := fun k => if Nat.eqb k n then v else V k).
    set (c' := fun k => if Nat.eqb k n then (-1) else c k).
    set (pv' := fun k => if Nat.eqb k n then x else pv k).
    assert (Hne : forall k, (k < n)%nat -> Nat.eqb k n = false) by (intros; apply Nat.eqb_neq; lia).
    assert (HPc : forall k, ~ cong p (c k) 0 -> P k = true).
    { intros k Hk. destruct (P k) eqn:Ep; auto. elim Hk. rewrite Hc; [reflexivity|auto]. }
    assert (Z1 : cong p (c' n) 0).
    { apply (piv_indep (S n) V' pv' c'); try lia.
      - intros k Hk Hk'. unfold V', pv', c' in *. destruct (Nat.eqb_spec k n) as [->|Hn]; auto.
        apply HV; auto; lia.
      - intros k l Hk Hl Hk' Hl' Hkl. unfold pv', c' in *.
        destruct (Nat.eqb_spec k n) as [->|Hkn]; destruct (Nat.eqb_spec l n) as [->|Hln]; auto.
        + elim (Hno l); auto. lia.
        + elim (Hno k); auto. lia.
        + apply Hd; auto; lia.
      - intros i. unfold lc. simpl. unfold c' at 2, V' at 2. rewrite Nat.eqb_refl.
        rewrite (Zsum_ext n _ (fun k => c k * V k i)).
        + fold (lc n c V i). rewrite (E i). unfold fzero. apply cong_eq; ring.
        + intros k Hk. unfold c', V'. rewrite (Hne k Hk). reflexivity. }
    unfold c' in Z1. rewrite Nat.eqb_refl in Z1.
    apply prime_1_not_0. replace 1 with (- (-1)) by ring. rewrite Z1. reflexivity.
Qed.

(** Eliminating the pivot of [v] with [u]. *)
Lemma piv_elim u v i : is_piv u i -> (forall j, (i < j)%nat -> cong p (v j) 0) ->
  exists a, forall j, (i <= j)%nat -> cong p (v j - a * u j) 0.
Proof.
  intros [Hu Hu'] Hv.
  destruct (inv_exists p (u i) Hp Hu) as [b Hb].
  exists (v i * b). intros j Hj. destruct (Nat.eq_dec i j) as [<-|Hn].
  - replace (v i - v i * b * u i) with (v i - v i * (b * u i)) by ring. rewrite Hb. apply cong_eq; ring.
  - rewrite (Hu' j) by lia. rewrite (Hv j) by lia. apply cong_eq; ring.
Qed.

(** If every position below [m] satisfying the predicate of possible pivots of the
    subspace [Z] is the pivot of a generator in [S], then [S] spans [Z]. *)
Lemma span_by_pivots (Z : fvec -> Prop) (S : fvec -> Prop) m :
  (forall u v a w, Z u -> Z v -> veq p w (fadd (fscale a u) v) -> Z w) ->
  (forall u, S u -> Z u) ->
  (forall z i, (i < m)%nat -> Z z -> is_piv z i -> exists u, S u /\ is_piv u i) ->
  forall z, Z z -> (forall i, (m <= i)%nat -> cong p (z i) 0) -> span p S z.
Proof.
  intros HZ HS Hpiv.
  assert (G : forall k, (k <= m)%nat -> forall z, Z z -> (forall i, (k <= i)%nat -> cong p (z i) 0) -> span p S z).
  { induction k as [|k IH]; intros Hk z Hz H0.
    - apply span_0. intros i. apply H0; lia.
    - destruct (cong_dec p (z k) 0) as [E|E].
      + apply IH; auto; try lia. intros i Hi. destruct (Nat.eq_dec i k) as [->|]; auto. apply H0; lia.
      + assert (Hzk : is_piv z k) by (split; auto; intros j Hj; apply H0; lia).
        destruct (Hpiv z k ltac:(lia) Hz Hzk) as (u & Hu & Huk).
        destruct (piv_elim u z k Huk) as [a Ha]; [apply Hzk|].
        set (z' := fadd (fscale (- a) u) z).
        assert (Hz' : span p S z').
        { apply IH; try lia.
          - apply (HZ u z (- a)); auto. reflexivity.
          - intros i Hi. unfold z', fadd, fscale.
            replace (- a * u i + z i) with (z i - a * u i) by ring. apply Ha; auto. }
        apply (span_step p S u z' z a); auto.
        intros i. unfold z', fadd, fscale. apply cong_eq; ring. }
  intros z Hz H0. apply (G m); auto.
Qed.

End Span.

Lemma prime_5 : prime 5.
Proof.
  apply prime_intro; [lia|]. intros n Hn. unfold rel_prime.
  assert (n = 1 \/ n = 2 \/ n = 3 \/ n = 4) as [->|[->|[->| ->]]] by lia.
  all: match goal with |- Zis_gcd ?a ?b 1 => change 1 with (Z.gcd a b); apply Zgcd_is_gcd end.
Qed.
