(** * Families of vectors restricted to a set of indices *)
From Verif Require Import Base ListX Lin IK_pivot.
From Coq Require Import Znumtheory.
Local Open Scope Z_scope.

Lemma lc_lc n k b (W : nat -> fvec) (V : nat -> fvec) i : lc n (lc k b W) V i = lc k b (fun l => lc n (W l) V) i.
Proof.
  unfold lc. rewrite (Zsum_ext k _ (fun l => Zsum n (fun x => b l * W l x * V x i))).
  - rewrite Zsum_swap. apply Zsum_ext. intros x Hx. rewrite <- Zsum_scale_r. reflexivity.
  - intros l Hl. rewrite <- Zsum_scale. apply Zsum_ext. intros; ring.
Qed.

Lemma lc_cong p n c c' (V V' : nat -> fvec) i : (forall k, (k < n)%nat -> cong p (c k) (c' k)) ->
  (forall k, (k < n)%nat -> cong p (V k i) (V' k i)) -> cong p (lc n c V i) (lc n c' V' i).
Proof. intros H H'. unfold lc. apply Zsum_cong. intros k Hk. rewrite (H k Hk), (H' k Hk). reflexivity. Qed.

Lemma lc_cong0 p n c (V : nat -> fvec) i : (forall k, (k < n)%nat -> cong p (c k * V k i) 0) -> cong p (lc n c V i) 0.
Proof. intros H. unfold lc. apply Zsum_cong0. auto. Qed.

Lemma lc_extend p n k c (V : nat -> fvec) i : (k <= n)%nat -> (forall l, (k <= l < n)%nat -> cong p (c l) 0) ->
  cong p (lc n c V i) (lc k c V i).
Proof. intros H H0. unfold lc. apply Zsum_cong_trunc; auto. intros l Hl. rewrite (H0 l Hl). apply cong_eq; ring. Qed.

Lemma on_add P u v i : on P (fun x => u x + v x) i = on P u i + on P v i.
Proof. unfold on. destruct (P i); ring. Qed.
Lemma on_scale P a u i : on P (fun x => a * u x) i = a * on P u i.
Proof. unfold on. destruct (P i); ring. Qed.
Lemma on_ext P Q v i : (forall x, P x = Q x) -> on P v i = on Q v i.
Proof. intros H. unfold on. rewrite H. reflexivity. Qed.
Lemma on_on P Q v i : (Q i = true -> P i = true) -> on Q (on P v) i = on Q v i.
Proof. intros H. unfold on. destruct (Q i); auto. rewrite H; auto. Qed.
Lemma on_nz p P v i : ~ cong p (on P v i) 0 -> P i = true /\ ~ cong p (v i) 0.
Proof. unfold on. destruct (P i); auto. intros H. elim H. reflexivity. Qed.
Lemma on_lc P n c V i : on P (lc n c V) i = lc n c (fun k => on P (V k)) i.
Proof. unfold on, lc. destruct (P i); auto. rewrite Zsum_0; auto. intros; ring. Qed.

Lemma lc_ext_dom' n c (V W : nat -> fvec) i : (forall k, (k < n)%nat -> c k <> 0 -> V k i = W k i) -> lc n c V i = lc n c W i.
Proof.
  intros H. unfold lc. apply Zsum_ext. intros k Hk. destruct (Z.eq_dec (c k) 0) as [E|E]; [rewrite E; ring|]. rewrite H; auto.
Qed.

Lemma fin_choose {B : Type} (d : B) n (R : nat -> B -> Prop) : (forall j, (j < n)%nat -> exists y, R j y) ->
  exists f, forall j, (j < n)%nat -> R j (f j).
Proof.
  induction n as [|n IH]; intros H.
  - exists (fun _ => d). intros; lia.
  - destruct IH as [f Hf]; [intros; apply H; lia|]. destruct (H n ltac:(lia)) as [y Hy].
    exists (fun j => if Nat.eqb j n then y else f j). intros j Hj. destruct (Nat.eqb_spec j n) as [->|]; auto. apply Hf. lia.
Qed.

(** Triangular vectors. *)
Definition tri (p : Z) (j : nat) (w : fvec) : Prop := (forall i, ~ cong p (w i) 0 -> (i <= j)%nat) /\ ~ cong p (w j) 0.

Lemma tri_above p j w i : tri p j w -> (j < i)%nat -> cong p (w i) 0.
Proof. intros [H _] Hi. destruct (cong_dec p (w i) 0) as [|X]; auto. specialize (H i X). lia. Qed.

Lemma tri_funit p j : prime p -> tri p j (funit j).
Proof.
  intros Hp. split.
  - intros i Hi. unfold funit in Hi. destruct (Nat.eqb_spec i j); [lia|]. elim Hi. reflexivity.
  - unfold funit. rewrite Nat.eqb_refl. apply prime_1_not_0; auto.
Qed.

Lemma tri_cong p j u w : (forall i, cong p (u i) (w i)) -> tri p j u -> tri p j w.
Proof. intros H [H1 H2]. split; [intros i Hi; apply H1; rewrite H; auto|rewrite <- H; auto]. Qed.

Lemma tri_comb p j u k b (W : nat -> fvec) : tri p j u ->
  (forall l, (l < k)%nat -> ~ cong p (b l) 0 -> (l < j)%nat /\ tri p l (W l)) ->
  tri p j (fun i => u i + lc k b W i).
Proof.
  intros Hu HW.
  assert (Z0 : forall i, (j <= i)%nat -> cong p (lc k b W i) 0).
  { intros i Hi. apply lc_cong0. intros l Hl. destruct (cong_dec p (b l) 0) as [E|E]; [rewrite E; apply cong_eq; ring|].
    destruct (HW l Hl E) as [H1 H2]. rewrite (tri_above p l _ i H2) by lia. apply cong_eq; ring. }
  split.
  - intros i Hi. destruct (le_lt_dec i j); auto. elim Hi. rewrite (Z0 i) by lia. rewrite (tri_above p j u i Hu) by lia. reflexivity.
  - rewrite (Z0 j) by lia. rewrite Z.add_0_r. apply Hu.
Qed.

(** Triangular systems have solutions. *)
Lemma tri_solve p (U : nat -> fvec) : prime p -> forall k, (forall j, (j < k)%nat -> tri p j (U j)) ->
  forall x : fvec, (forall i, ~ cong p (x i) 0 -> (i < k)%nat) ->
  exists w, (forall i, ~ cong p (w i) 0 -> (i < k)%nat) /\ (forall i, cong p (x i) (lc k w U i)) /\
    forall q, k = S q -> ~ cong p (x q) 0 -> ~ cong p (w q) 0.
Proof.
  intros Hp. induction k as [|k IH]; intros HU x Hx.
  - exists (fun _ => 0). split; [intros i Hi; elim Hi; reflexivity|]. split; [|intros; lia].
    intros i. destruct (cong_dec p (x i) 0) as [E|E]; [rewrite E; reflexivity|]. specialize (Hx i E). lia.
  - destruct (inv_exists p (U k k) Hp) as [a Ha]; [apply HU; lia|].
    destruct (IH ltac:(intros; apply HU; lia) (fun i => x i - x k * a * U k i)) as (w & W1 & W2 & _).
    { intros i Hi. destruct (lt_eq_lt_dec i k) as [[H|H]|H]; auto; elim Hi.
      - subst i. replace (x k - x k * a * U k k) with (x k * (1 - a * U k k)) by ring. rewrite Ha. apply cong_eq; ring.
      - rewrite (tri_above p k (U k) i (HU k ltac:(lia)) H).
        assert (E : cong p (x i) 0). { destruct (cong_dec p (x i) 0) as [|E]; auto. specialize (Hx i E). lia. }
        rewrite E. apply cong_eq; ring. }
    exists (fun i => if Nat.eqb i k then x k * a else w i). split; [|split].
    + intros i Hi. destruct (Nat.eqb_spec i k); [lia|]. specialize (W1 i Hi). lia.
    + intros i. unfold lc. cbn [Zsum]. rewrite Nat.eqb_refl.
      rewrite (Zsum_ext k _ (fun l => w l * U l i)).
      * fold (lc k w U i). rewrite <- (W2 i). apply cong_eq; ring.
      * intros l Hl. destruct (Nat.eqb_spec l k); [lia|]. reflexivity.
    + intros q Eq Hq. injection Eq as <-. rewrite Nat.eqb_refl. intros E. apply cong0_mul in E; auto. destruct E as [E|E]; [tauto|].
      rewrite E in Ha. replace (0 * U k k) with 0 in Ha by ring. apply (prime_1_not_0 p Hp). symmetry. auto.
Qed.

Section Fam.
Variables (p : Z) (m : nat) (P : nat -> bool).
Hypothesis Hp : prime p.
Hypothesis HP : forall i, P i = true -> (i < m)%nat.

(** zero on [P] *)
Definition zon (v : fvec) : Prop := veq p (on P v) fzero.

Lemma zon_at v i : zon v -> P i = true -> cong p (v i) 0.
Proof. intros H E. specialize (H i). unfold on in H. rewrite E in H. exact H. Qed.
Lemma zon_intro v : (forall i, P i = true -> cong p (v i) 0) -> zon v.
Proof. intros H i. unfold on. destruct (P i) eqn:E; [apply H; auto|reflexivity]. Qed.

Lemma zon_dec v : {zon v} + {~ zon v}.
Proof.
  destruct (forallb (fun i => negb (P i) || (v i mod p =? 0)) (seq 0 m)) eqn:E.
  - left. rewrite forallb_forall in E. apply zon_intro. intros i Hi. specialize (E i). 
    assert (X : (negb (P i) || (v i mod p =? 0) = true)%bool) by (apply E; apply in_seq; specialize (HP i Hi); lia).
    rewrite Hi in X. cbn in X. apply Z.eqb_eq in X. rewrite <- (cong_mod p (v i)), X. reflexivity.
  - right. intros Hz. assert (X : forallb (fun i => negb (P i) || (v i mod p =? 0)) (seq 0 m) = true); [|congruence].
    apply forallb_forall. intros i _. destruct (P i) eqn:Ei; auto. cbn. apply Z.eqb_eq.
    pose proof (zon_at v i Hz Ei) as X. assert (Hp0 : p <> 0) by (destruct Hp; lia).
    apply (cong_iff_mod p _ _ Hp0) in X. rewrite Z.mod_0_l in X; auto.
Qed.

Lemma zon_cong u v : (forall i, P i = true -> cong p (u i) (v i)) -> zon u -> zon v.
Proof. intros H Hz. apply zon_intro. intros i Hi. rewrite <- (H i Hi). apply zon_at; auto. Qed.

Lemma zon_lc n c V : (forall k, (k < n)%nat -> ~ cong p (c k) 0 -> zon (V k)) -> zon (lc n c V).
Proof.
  intros H. apply zon_intro. intros i Hi. apply lc_cong0. intros k Hk. destruct (cong_dec p (c k) 0) as [E|E].
  - rewrite E. apply cong_eq; ring.
  - rewrite (zon_at _ i (H k Hk E) Hi). apply cong_eq; ring.
Qed.

Lemma zon_add u v : zon u -> zon v -> zon (fun i => u i + v i).
Proof. intros H H'. apply zon_intro. intros i Hi. rewrite (zon_at u i H Hi), (zon_at v i H' Hi). reflexivity. Qed.
Lemma zon_scale a u : zon u -> zon (fun i => a * u i).
Proof. intros H. apply zon_intro. intros i Hi. rewrite (zon_at u i H Hi). apply cong_eq; ring. Qed.

Definition indep (n : nat) (V : nat -> fvec) (ok : nat -> bool) : Prop :=
  forall c, (forall j, (j < n)%nat -> ~ cong p (c j) 0 -> ok j = true /\ ~ zon (V j)) -> zon (lc n c V) ->
  forall j, (j < n)%nat -> cong p (c j) 0.

Lemma indep_ext n V V' ok : (forall j i, (j < n)%nat -> cong p (V j i) (V' j i)) -> indep n V ok -> indep n V' ok.
Proof.
  intros H HI c Hc Hz. apply HI.
  - intros j Hj Hn. destruct (Hc j Hj Hn) as [H1 H2]. split; auto. intros Hz'. apply H2.
    apply (zon_cong (V j)); auto.
  - apply (zon_cong (lc n c V')); auto. intros i Hi. apply lc_cong; [reflexivity|]. intros k Hk. symmetry. auto.
Qed.

Lemma indep_lt n V ok ok' : (forall j, (j < n)%nat -> ok' j = true -> ok j = true) -> indep n V ok -> indep n V ok'.
Proof. intros H HI c Hc. apply HI. intros j Hj Hn. destruct (Hc j Hj Hn). auto. Qed.

(** Coefficients on zero vectors can be dropped. *)
Definition prune (V : nat -> fvec) (c : nat -> Z) (j : nat) : Z := if zon_dec (V j) then 0 else c j.

Lemma prune_lc n V c i : P i = true -> cong p (lc n (prune V c) V i) (lc n c V i).
Proof.
  intros Hi. unfold lc. apply Zsum_cong. intros k Hk. unfold prune. destruct (zon_dec (V k)) as [Hz|Hz]; [|reflexivity].
  rewrite (zon_at _ i Hz Hi). apply cong_eq; ring.
Qed.

Lemma indep_use n V ok c : indep n V ok -> (forall j, (j < n)%nat -> ~ cong p (c j) 0 -> ok j = true) ->
  zon (lc n c V) -> forall j, (j < n)%nat -> ~ zon (V j) -> cong p (c j) 0.
Proof.
  intros HI Hc Hz j Hj Hnz.
  assert (X : cong p (prune V c j) 0).
  { apply (HI (prune V c)); auto.
    - intros k Hk. unfold prune. destruct (zon_dec (V k)) as [H|H]; [|auto]. intros E. elim E. reflexivity.
    - apply (zon_cong (lc n c V)); auto. intros i Hi. symmetry. apply prune_lc; auto. }
  unfold prune in X. destruct (zon_dec (V j)); tauto.
Qed.

(** Replacing one vector. *)
Lemma indep_step n V V' ok t a b :
  indep n V ok -> (t < n)%nat -> ok t = true -> ~ zon (V t) -> ~ cong p a 0 ->
  (forall i, (i < n)%nat -> i <> t -> forall x, V' i x = V i x) ->
  cong p (b t) 0 -> (forall i, (i < n)%nat -> ~ cong p (b i) 0 -> ok i = true) ->
  (forall x, P x = true -> cong p (V' t x) (a * V t x + lc n b V x)) ->
  ~ zon (V' t) /\ indep n V' ok.
Proof.
  intros HI Ht Hok Hnz Ha Heq Hbt Hb HV'.
  assert (Hlc : forall c x, P x = true -> cong p (lc n c V' x)
     (lc n (fun i => (if Nat.eqb i t then c t * a else c i) + c t * b i) V x)).
  { intros c x Hx. rewrite (lc_add n (fun i => if Nat.eqb i t then c t * a else c i)). rewrite lc_scale.
    assert (E1 : cong p (lc n c V' x) (lc n (fun i => if Nat.eqb i t then 0 else c i) V x + c t * V' t x)).
    { rewrite <- (lc_unit n t V' x Ht), <- lc_scale.
      rewrite <- (lc_ext_dom' n (fun i => if Nat.eqb i t then 0 else c i) V' V x).
      - unfold lc. rewrite <- Zsum_add. apply Zsum_cong. intros k Hk. unfold funit.
        destruct (Nat.eqb_spec k t) as [->|Hn]; apply cong_eq; ring.
      - intros k Hk Hn. destruct (Nat.eqb_spec k t); [lia|]. apply Heq; auto. }
    rewrite E1, (HV' x Hx).
    assert (E2 : lc n (fun i => if Nat.eqb i t then c t * a else c i) V x = lc n (fun i => if Nat.eqb i t then 0 else c i) V x + c t * a * V t x).
    { rewrite <- (lc_unit n t V x Ht), <- lc_scale. unfold lc. rewrite <- Zsum_add. apply Zsum_ext. intros k Hk. unfold funit.
      destruct (Nat.eqb_spec k t) as [->|Hn]; ring. }
    rewrite E2. apply cong_eq; ring. }
  assert (Hcoef : forall c, zon (lc n c V') -> (forall i, (i < n)%nat -> ~ cong p (c i) 0 -> ok i = true) ->
     cong p (c t) 0 /\ forall i, (i < n)%nat -> i <> t -> ~ zon (V i) -> cong p (c i) 0).
  { intros c Hz Hc.
    set (c' := fun i => (if Nat.eqb i t then c t * a else c i) + c t * b i).
    assert (Hc' : forall i, (i < n)%nat -> ~ cong p (c' i) 0 -> ok i = true).
    { intros i Hi Hn. destruct (ok i) eqn:E; auto. elim Hn. unfold c'.
      destruct (Nat.eqb_spec i t) as [->|Hit]; [congruence|].
      assert (X : cong p (c i) 0). { destruct (cong_dec p (c i) 0) as [|X]; auto. rewrite (Hc i Hi X) in E. discriminate. }
      assert (Y : cong p (b i) 0). { destruct (cong_dec p (b i) 0) as [|Y]; auto. rewrite (Hb i Hi Y) in E. discriminate. }
      rewrite X, Y. apply cong_eq; ring. }
    assert (Hz' : zon (lc n c' V)) by (apply (zon_cong (lc n c V')); auto; intros; apply Hlc; auto).
    pose proof (indep_use n V ok c' HI Hc' Hz') as HU.
    assert (Hct : cong p (c t) 0).
    { specialize (HU t Ht Hnz). unfold c' in HU. rewrite Nat.eqb_refl, Hbt in HU.
      replace (c t * a + c t * 0) with (c t * a) in HU by ring. apply cong0_mul in HU; tauto. }
    split; auto. intros i Hi Hit Hni. specialize (HU i Hi Hni). unfold c' in HU.
    apply Nat.eqb_neq in Hit. rewrite Hit, Hct in HU. replace (c i + 0 * b i) with (c i) in HU by ring. auto. }
  assert (Hnz' : ~ zon (V' t)).
  { intros Hz. destruct (Hcoef (funit t)) as [X _].
    - apply (zon_cong (V' t)); auto. intros i Hi. rewrite lc_unit by auto. reflexivity.
    - intros i Hi Hn. unfold funit in Hn. destruct (Nat.eq_dec i t) as [->|Hit]; auto.
      exfalso. apply Hn. assert (X1 : Nat.eqb i t = false) by (apply Nat.eqb_neq; auto). assert (X2 : Nat.eqb t i = false) by (apply Nat.eqb_neq; auto).
      rewrite ?X1, ?X2. reflexivity.
    - unfold funit in X. rewrite Nat.eqb_refl in X. apply (prime_1_not_0 p Hp). auto. }
  split; auto. intros c Hc Hz j Hj.
  destruct (Hcoef c Hz) as [Hct Hci]. { intros i Hi Hn. apply (Hc i Hi Hn). }
  destruct (Nat.eq_dec j t) as [->|Hjt]; auto.
  destruct (cong_dec p (c j) 0) as [|Hn]; auto. apply Hci; auto.
  intros Hz'. apply (Hc j Hj Hn). apply (zon_cong (V j)); auto. intros i _. rewrite Heq by auto. reflexivity.
Qed.

(** Replacing a whole family by a triangular transformation. *)
Lemma indep_tri n V V' ok b :
  indep n V ok ->
  (forall j, (j < n)%nat -> forall i, (i < n)%nat -> ~ cong p (b j i) 0 -> (i < j)%nat /\ (ok j = true -> ok i = true)) ->
  (forall j x, (j < n)%nat -> P x = true -> ok j = true -> cong p (V' j x) (V j x + lc n (b j) V' x)) ->
  (forall j, (j < n)%nat -> ok j = true -> ~ zon (V j) \/ forall x, V' j x = V j x) ->
  (forall j, (j < n)%nat -> ok j = true -> ~ zon (V j) -> ~ zon (V' j)) /\ indep n V' ok.
Proof.
  intros HI Hb HV' Hz.
  set (W := fun t j => if Nat.ltb j t then (if ok j then V' j else V j) else V j).
  assert (G : forall t, (t <= n)%nat -> indep n (W t) ok /\ forall j, (j < t)%nat -> ok j = true -> ~ zon (V j) -> ~ zon (V' j)).
  { induction t as [|t IH]; intros Ht.
    - split; [|intros; lia]. apply (indep_ext n V); auto. intros. reflexivity.
    - destruct IH as [IH1 IH2]; [lia|]. destruct (ok t) eqn:Eok.
      + assert (HWt : forall x, W t t x = V t x). { intros x. unfold W. rewrite Nat.ltb_irrefl. reflexivity. }
        assert (Hlc : forall x, P x = true -> cong p (lc n (b t) V' x) (lc n (b t) (W t) x)).
        { intros x Hx. unfold lc. apply Zsum_cong. intros i Hi. destruct (cong_dec p (b t i) 0) as [E|E].
          - rewrite E. apply cong_eq; ring.
          - destruct (Hb t ltac:(lia) i Hi E) as [Hit Hoi]. unfold W. destruct (Nat.ltb_spec i t); [|lia].
            rewrite (Hoi Eok). reflexivity. }
        destruct (Hz t ltac:(lia) Eok) as [Hn|Hs].
        * destruct (indep_step n (W t) (W (S t)) ok t 1 (b t)) as [R1 R2]; auto.
          -- intros Hz'. apply Hn. apply (zon_cong (W t t)); auto. intros. rewrite HWt. reflexivity.
          -- apply prime_1_not_0; auto.
          -- intros i Hi Hit x. unfold W. destruct (Nat.ltb_spec i t), (Nat.ltb_spec i (S t)); auto; lia.
          -- destruct (cong_dec p (b t t) 0) as [|X]; auto. destruct (Hb t ltac:(lia) t ltac:(lia) X). lia.
          -- intros i Hi X. destruct (Hb t ltac:(lia) i Hi X). auto.
          -- intros x Hx. unfold W at 1. destruct (Nat.ltb_spec t (S t)); [|lia]. rewrite Eok. rewrite HV' by (auto; lia).
             rewrite HWt, (Hlc x Hx). apply cong_eq; ring.
          -- split; auto. intros j Hj Hoj Hnj. destruct (Nat.eq_dec j t) as [->|]; [|apply IH2; auto; lia].
             intros Hzj. apply R1. apply (zon_cong (V' t)); auto. intros i _. unfold W. destruct (Nat.ltb_spec t (S t)); [|lia]. rewrite Eok. reflexivity.
        * split.
          -- apply (indep_ext n (W t)); auto. intros j i Hj. unfold W.
             destruct (Nat.ltb_spec j t), (Nat.ltb_spec j (S t)); try lia; try reflexivity.
             assert (j = t) by lia. subst j. rewrite Eok, Hs. reflexivity.
          -- intros j Hj Hoj Hnj. destruct (Nat.eq_dec j t) as [->|]; [|apply IH2; auto; lia].
             intros Hzj. apply Hnj. apply (zon_cong (V' t)); auto. intros i _. rewrite Hs. reflexivity.
      + split.
        * apply (indep_ext n (W t)); auto. intros j i Hj. unfold W.
          destruct (Nat.ltb_spec j t), (Nat.ltb_spec j (S t)); try lia; try reflexivity.
          assert (j = t) by lia. subst j. rewrite Eok. reflexivity.
        * intros j Hj Hoj Hnj. destruct (Nat.eq_dec j t) as [->|]; [congruence|apply IH2; auto; lia]. }
  destruct (G n ltac:(lia)) as [G1 G2]. split.
  - intros j Hj. apply G2; auto.
  - intros c Hc Hzc. apply G1.
    + intros j Hj Hn. destruct (Hc j Hj Hn) as [H1 H2]. split; auto. intros Hz'. apply H2. apply (zon_cong (W n j)); auto.
      intros i _. unfold W. destruct (Nat.ltb_spec j n); [|lia]. rewrite H1. reflexivity.
    + apply (zon_cong (lc n c V')); auto. intros i Hi. unfold lc. apply Zsum_cong. intros j Hj.
      destruct (cong_dec p (c j) 0) as [E|E]; [rewrite E; apply cong_eq; ring|].
      unfold W. destruct (Nat.ltb_spec j n); [|lia]. destruct (Hc j Hj E) as [-> _]. reflexivity.
Qed.

(** Replacing vectors, from the last to the first. *)
Lemma indep_top n V V' ok (a : nat -> Z) b :
  indep n V ok ->
  (forall j, (j < n)%nat -> ok j = true -> (forall x, V' j x = V j x) \/
     (~ zon (V j) /\ ~ cong p (a j) 0 /\
      (forall i, (i < n)%nat -> ~ cong p (b j i) 0 -> (i < j)%nat /\ ok i = true) /\
      (forall x, P x = true -> cong p (V' j x) (a j * V j x + lc n (b j) V x)))) ->
  (forall j, (j < n)%nat -> ok j = true -> ~ zon (V j) -> ~ zon (V' j)) /\ indep n V' ok.
Proof.
  intros HI HV.
  set (W := fun t j => if (Nat.leb t j && ok j)%bool then V' j else V j).
  assert (G : forall d t, (n = t + d)%nat -> indep n (W t) ok /\ forall j, (t <= j < n)%nat -> ok j = true -> ~ zon (V j) -> ~ zon (V' j)).
  { induction d as [|d IH]; intros t Ht.
    - split; [|intros; lia]. apply (indep_ext n V); auto. intros j i Hj. unfold W. destruct (Nat.leb_spec t j); [lia|reflexivity].
    - destruct (IH (S t)) as [IH1 IH2]; [lia|].
      assert (HWs : forall j, (j < n)%nat -> j <> t -> forall x, W t j x = W (S t) j x).
      { intros j Hj Hn x. unfold W. destruct (Nat.leb_spec t j), (Nat.leb_spec (S t) j); auto; lia. }
      assert (HWt : forall x, W (S t) t x = V t x). { intros x. unfold W. destruct (Nat.leb_spec (S t) t); [lia|reflexivity]. }
      destruct (ok t) eqn:Eok.
      + assert (HWt' : forall x, W t t x = V' t x). { intros x. unfold W. rewrite Nat.leb_refl, Eok. reflexivity. }
        destruct (HV t ltac:(lia) Eok) as [Hs|(Hn & Ha & Hb & Hx)].
        * split.
          -- apply (indep_ext n (W (S t))); auto. intros j i Hj. destruct (Nat.eq_dec j t) as [->|Hn].
             ++ rewrite HWt, HWt', Hs. reflexivity.
             ++ rewrite HWs by auto. reflexivity.
          -- intros j Hj Hoj Hnj. destruct (Nat.eq_dec j t) as [->|]; [|apply IH2; auto; lia].
             intros Hzj. apply Hnj. apply (zon_cong (V' t)); auto. intros i _. rewrite Hs. reflexivity.
        * destruct (indep_step n (W (S t)) (W t) ok t (a t) (b t)) as [R1 R2]; auto; try lia.
          -- intros Hz. apply Hn. apply (zon_cong (W (S t) t)); auto. intros. rewrite HWt. reflexivity.
          -- destruct (cong_dec p (b t t) 0) as [|X]; auto. destruct (Hb t ltac:(lia) X). lia.
          -- intros i Hi X. apply (Hb i Hi X).
          -- intros x Hpx. rewrite HWt', HWt, (Hx x Hpx).
             assert (X : cong p (lc n (b t) V x) (lc n (b t) (W (S t)) x)).
             { unfold lc. apply Zsum_cong. intros i Hi. destruct (cong_dec p (b t i) 0) as [Ec|Ec].
               - rewrite Ec. apply cong_eq; ring.
               - destruct (Hb i Hi Ec). unfold W. destruct (Nat.leb_spec (S t) i); [lia|reflexivity]. }
             rewrite X. reflexivity.
          -- split; auto. intros j Hj Hoj Hnj. destruct (Nat.eq_dec j t) as [->|]; [|apply IH2; auto; lia].
             intros Hzj. apply R1. apply (zon_cong (V' t)); auto. intros i _. rewrite HWt'. reflexivity.
      + split.
        * apply (indep_ext n (W (S t))); auto. intros j i Hj. destruct (Nat.eq_dec j t) as [->|Hn].
          -- unfold W. rewrite Eok, !andb_false_r. reflexivity.
          -- rewrite HWs by auto. reflexivity.
        * intros j Hj Hoj Hnj. destruct (Nat.eq_dec j t) as [->|]; [congruence|apply IH2; auto; lia]. }
  destruct (G n 0%nat ltac:(lia)) as [G1 G2]. split.
  - intros j Hj. apply G2. lia.
  - intros c Hc Hzc. apply G1.
    + intros j Hj Hn. destruct (Hc j Hj Hn) as [H1 H2]. split; auto. intros Hz'. apply H2. apply (zon_cong (W 0%nat j)); auto.
      intros i _. unfold W. cbn [Nat.leb andb]. rewrite H1. reflexivity.
    + apply (zon_cong (lc n c V')); auto. intros i Hi. unfold lc. apply Zsum_cong. intros j Hj.
      destruct (cong_dec p (c j) 0) as [E|E]; [rewrite E; apply cong_eq; ring|].
      unfold W. cbn [Nat.leb andb]. destruct (Hc j Hj E) as [-> _]. reflexivity.
Qed.

(** Distinct pivots. *)
Lemma indep_piv n V ok (q : nat -> nat) :
  (forall j, (j < n)%nat -> ok j = true -> zon (V j) \/ is_piv p (on P (V j)) (q j)) ->
  (forall i j, (i < n)%nat -> (j < n)%nat -> ok i = true -> ok j = true -> ~ zon (V i) -> ~ zon (V j) -> q i = q j -> i = j) ->
  indep n V ok.
Proof.
  intros H Hd c Hc Hz. apply (piv_indep p Hp n (fun j => on P (V j)) q c).
  - intros k Hk Hn. destruct (Hc k Hk Hn). destruct (H k Hk); tauto.
  - intros k l Hk Hl Hn Hn'. destruct (Hc k Hk Hn), (Hc l Hl Hn'). auto.
  - intros i. rewrite <- on_lc. apply Hz.
Qed.

(** Spanning is kept by a triangular transformation. *)
Definition gens (n : nat) (V : nat -> fvec) (ok : nat -> bool) (x : fvec) : Prop :=
  exists c, (forall j, (j < n)%nat -> ~ cong p (c j) 0 -> ok j = true) /\ forall i, P i = true -> cong p (x i) (lc n c V i).

Lemma gens_tri n V V' ok b x :
  (forall j, (j < n)%nat -> ok j = true -> forall i, (i < n)%nat -> ~ cong p (b j i) 0 -> ok i = true) ->
  (forall j i, (j < n)%nat -> P i = true -> ok j = true -> cong p (V' j i) (V j i + lc n (b j) V' i)) ->
  gens n V ok x -> gens n V' ok x.
Proof.
  intros Hb HV' (c & Hc & Hx).
  exists (fun i => c i - Zsum n (fun j => c j * b j i)). split.
  - intros i Hi Hn. destruct (ok i) eqn:E; auto. elim Hn.
    assert (X : cong p (c i) 0). { destruct (cong_dec p (c i) 0) as [|X]; auto. rewrite (Hc i Hi X) in E. discriminate. }
    rewrite X. rewrite Zsum_cong0; [reflexivity|]. intros j Hj.
    destruct (cong_dec p (c j) 0) as [Y|Y]; [rewrite Y; apply cong_eq; ring|].
    destruct (cong_dec p (b j i) 0) as [Z|Z]; [rewrite Z; apply cong_eq; ring|].
    rewrite (Hb j Hj (Hc j Hj Y) i Hi Z) in E. discriminate.
  - intros i Hi. rewrite (Hx i Hi).
    assert (E : lc n (fun l => c l - Zsum n (fun j => c j * b j l)) V' i = lc n c V' i - lc n c (fun j => lc n (b j) V') i).
    { rewrite <- lc_lc. unfold lc. rewrite <- Zsum_sub. apply Zsum_ext. intros k Hk. ring. }
    rewrite E. unfold lc at 1 2 3. rewrite <- Zsum_sub. apply Zsum_cong. intros j Hj.
    destruct (cong_dec p (c j) 0) as [Y|Y]; [rewrite Y; apply cong_eq; ring|].
    rewrite (HV' j i Hj Hi (Hc j Hj Y)). apply cong_eq; ring.
Qed.

Lemma gens_prune n V ok x : gens n V ok x ->
  exists c, (forall j, (j < n)%nat -> ~ cong p (c j) 0 -> ok j = true /\ ~ zon (V j)) /\ forall i, P i = true -> cong p (x i) (lc n c V i).
Proof.
  intros (c & Hc & Hx). exists (prune V c). split.
  - intros j Hj. unfold prune. destruct (zon_dec (V j)); auto. intros E. elim E. reflexivity.
  - intros i Hi. rewrite (Hx i Hi). symmetry. apply prune_lc; auto.
Qed.
End Fam.
