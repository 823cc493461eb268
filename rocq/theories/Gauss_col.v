(** * Proofs about [gauss_col]. *)
From Verif Require Import Base Lin Gauss_model Gauss_arith.
From Coq Require Import Znumtheory.
Local Open Scope Z_scope.

(** ** Entries of elementary vector operations *)
Lemma zipw_length {A B C} (f : A -> B -> C) u v : length u = length v -> length (zipw f u v) = length u.
Proof.
  revert v. induction u as [|a u IH]; intros [|b v]; simpl; intros H; auto; try discriminate.
Qed.

Lemma vget_map (f : Z -> Z) v i : f 0 = 0 -> vget (map f v) i = f (vget v i).
Proof. intros H. unfold vget. rewrite <- H at 1. apply map_nth. Qed.

Lemma vget_vscale c v i : vget (vscale c v) i = c * vget v i.
Proof. unfold vscale. rewrite (vget_map (Z.mul c)); auto. ring. Qed.

Lemma Zmod_0_l' p : 0 mod p = 0.
Proof. destruct p; reflexivity. Qed.

Lemma vget_vmod v p i : vget (vmod v p) i = vget v i mod p.
Proof. unfold vmod. rewrite (vget_map (fun x => x mod p)); auto. Qed.

Lemma vget_vadd u : forall v i, length u = length v -> vget (vadd u v) i = vget u i + vget v i.
Proof.
  induction u as [|a u IH]; intros [|b v] i H; try discriminate.
  - destruct i; reflexivity.
  - destruct i as [|i]; [reflexivity|]. apply (IH v i). simpl in H; lia.
Qed.

Lemma vget_add_arrays u v c i : length u = length v ->
  vget (add_arrays_mod_c u v c) i = (vget u i + vget v i) mod c.
Proof. intros H. unfold add_arrays_mod_c. rewrite vget_vmod, vget_vadd; auto. Qed.

Lemma add_arrays_length u v c : length u = length v -> length (add_arrays_mod_c u v c) = length u.
Proof.
  intros H. unfold add_arrays_mod_c, vmod, vadd. rewrite map_length. apply zipw_length; auto.
Qed.

Lemma vget_nth_map {A} (f : A -> Z) d l i : (i < length l)%nat -> vget (map f l) i = f (nth i l d).
Proof.
  intros H. unfold vget. rewrite (nth_indep _ 0 (f d)) by (rewrite map_length; auto). apply map_nth.
Qed.

Lemma vunit_length n k : length (vunit n k) = n.
Proof. unfold vunit. rewrite map_length, seq_length. reflexivity. Qed.

Lemma vget_vunit n k i : (k < n)%nat -> vget (vunit n k) i = if Nat.eqb i k then 1 else 0.
Proof.
  intros Hk. destruct (lt_dec i n) as [Hi|Hi].
  - unfold vunit. rewrite (vget_nth_map _ 0%nat) by (rewrite seq_length; auto).
    rewrite seq_nth by auto. reflexivity.
  - rewrite vget_out by (rewrite vunit_length; lia).
    destruct (Nat.eqb_spec i k); auto. lia.
Qed.

Lemma vget_vzero n i : vget (vzero n) i = 0.
Proof.
  unfold vget, vzero. destruct (lt_dec i n).
  - apply nth_repeat.
  - apply nth_overflow. rewrite repeat_length. lia.
Qed.

(** ** One elimination step *)
Definition elim (p q : Z) (u w : vec) : vec := add_arrays_mod_c u (vscale (- q) w) p.

Lemma elim_length p q u w : length u = length w -> length (elim p q u w) = length u.
Proof. intros H. unfold elim. apply add_arrays_length. unfold vscale. rewrite map_length; auto. Qed.

Lemma vget_elim p q u w i : length u = length w -> vget (elim p q u w) i = (vget u i - q * vget w i) mod p.
Proof.
  intros H. unfold elim. rewrite vget_add_arrays by (unfold vscale; rewrite map_length; auto).
  rewrite vget_vscale. f_equal. ring.
Qed.

Lemma elim_pivot_lt p r rk i inv : length r = length rk ->
  last_nonzero r i -> last_nonzero rk i ->
  inv_mod_p (vget rk i) p = Ok inv ->
  index_pivot (elim p ((vget r i * inv) mod p) r rk) < Z.of_nat i.
Proof.
  intros Hl Hr Hrk Hinv.
  assert (Hp : p <> 0).
  { intros ->. unfold inv_mod_p in Hinv. simpl in Hinv. discriminate. }
  set (q := (vget r i * inv) mod p).
  destruct (index_pivot_cases (elim p q r rk)) as [[_ E]|(k & (Hk & Hk' & _) & E)]; [lia|].
  rewrite E. destruct (lt_dec k i); [lia|]. exfalso. apply Hk'.
  rewrite vget_elim by auto.
  destruct (Nat.eq_dec k i) as [->|Hn].
  - apply inv_mod_p_ok in Hinv.
    assert (C : cong p (vget r i - q * vget rk i) 0).
    { unfold q. rewrite (cong_mod p (vget r i * inv)).
      replace (vget r i * inv * vget rk i) with (vget r i * (inv * vget rk i)) by ring.
      rewrite Hinv. apply cong_eq; ring. }
    apply cong_iff_mod in C; auto.
  - destruct Hr as (_ & _ & Hr). destruct Hrk as (_ & _ & Hrk).
    rewrite (Hr k), (Hrk k) by lia. rewrite Z.mul_0_r; apply Zmod_0_l'.
Qed.

(** ** The while loop *)
Lemma gauss_while_inv p done (P : vec -> vec -> Prop) fuel : forall r t r' t',
  (forall r t rk tk i inv, P r t -> In (rk, tk) done ->
     last_nonzero r i -> last_nonzero rk i ->
     inv_mod_p (vget rk i) p = Ok inv ->
     P (elim p ((vget r i * inv) mod p) r rk) (elim p ((vget r i * inv) mod p) t tk)) ->
  P r t ->
  gauss_while fuel done r t (index_pivot r) p = Ok (r', t') ->
  P r' t' /\ (index_pivot r' = -1 \/ forall rk tk, In (rk, tk) done -> index_pivot rk <> index_pivot r').
Proof.
  induction fuel as [|f IH]; intros r t r' t' Hstep H0; cbn [gauss_while]; [discriminate|].
  destruct (Z.gtb_spec (index_pivot r) (-1)) as [Hpv|Hpv].
  - destruct (find (fun rt => index_pivot (fst rt) =? index_pivot r) done) as [[rk tk]|] eqn:Ef.
    + apply find_some in Ef. destruct Ef as [Hin Hpk]. cbn [fst] in Hpk. apply Z.eqb_eq in Hpk.
      destruct (index_pivot_cases r) as [[_ Er]|(i & Hi & Er)]; [lia|].
      rewrite Er, Nat2Z.id in *. apply index_pivot_iff in Hpk.
      destruct (inv_mod_p (vget rk i) p) as [inv|] eqn:Hinv; [|discriminate]. cbn [bind].
      pose proof (Hstep r t rk tk i inv H0 Hin Hi Hpk Hinv) as H1.
      fold (elim p ((vget r i * inv) mod p) r rk). fold (elim p ((vget r i * inv) mod p) t tk).
      destruct (vany (elim p ((vget r i * inv) mod p) r rk)) eqn:Ev.
      * apply IH; auto.
      * intros E; injection E as <- <-. split; auto. left. apply vany_pivot; auto.
    + intros E; injection E as <- <-. split; auto. right. intros rk tk Hin Hk.
      apply (find_none _ _ Ef) in Hin. cbn [fst] in Hin. apply Z.eqb_neq in Hin. auto.
  - intros E; injection E as <- <-. split; auto. left.
    pose proof (index_pivot_ge r). lia.
Qed.

Lemma gauss_while_fuel p done m fuel : forall r t,
  (forall rk tk, In (rk, tk) done -> length rk = m) -> length r = m ->
  (Z.to_nat (index_pivot r + 1) < fuel)%nat ->
  gauss_while fuel done r t (index_pivot r) p <> Err OutOfFuel.
Proof.
  induction fuel as [|f IH]; intros r t Hd Hr Hf; [lia|]. cbn [gauss_while].
  destruct (Z.gtb_spec (index_pivot r) (-1)) as [Hpv|Hpv]; [|discriminate].
  destruct (find (fun rt => index_pivot (fst rt) =? index_pivot r) done) as [[rk tk]|] eqn:Ef; [|discriminate].
  apply find_some in Ef. destruct Ef as [Hin Hpk]. cbn [fst] in Hpk. apply Z.eqb_eq in Hpk.
  destruct (index_pivot_cases r) as [[_ Er]|(i & Hi & Er)]; [lia|].
  rewrite Er, Nat2Z.id in *. apply index_pivot_iff in Hpk.
  destruct (inv_mod_p (vget rk i) p) as [inv|e] eqn:Hinv; cbn [bind].
  - fold (elim p ((vget r i * inv) mod p) r rk). fold (elim p ((vget r i * inv) mod p) t tk).
    destruct (vany (elim p ((vget r i * inv) mod p) r rk)) eqn:Ev; [|discriminate].
    assert (Hl : length r = length rk) by (rewrite (Hd rk tk); auto).
    apply IH; auto.
    + rewrite elim_length; auto.
    + pose proof (elim_pivot_lt p r rk i inv Hl Hi Hpk Hinv).
      pose proof (index_pivot_ge (elim p ((vget r i * inv) mod p) r rk)). lia.
  - apply inv_mod_p_err in Hinv. intuition congruence.
Qed.

Lemma index_pivot_bound r : index_pivot r + 1 <= Z.of_nat (length r).
Proof. destruct (index_pivot_cases r) as [[_ E]|(i & (Hi & _) & E)]; lia. Qed.

(** Entries between 0 and p-1. *)
Definition rng (p : Z) (v : vec) : Prop := forall i, 0 <= vget v i < p.

Lemma rng_elim p q u w : 0 < p -> length u = length w -> rng p (elim p q u w).
Proof. intros Hp Hl i. rewrite vget_elim by auto. apply Z.mod_pos_bound; auto. Qed.

Lemma rng_iff p v : 0 < p -> rng p v <-> Forall (fun x => 0 <= x < p) v.
Proof.
  intros Hp. split.
  - intros H. apply Forall_forall. intros x Hx. apply In_nth with (d := 0) in Hx.
    destruct Hx as (i & Hi & <-). apply H.
  - intros H i. destruct (lt_dec i (length v)) as [Hi|Hi].
    + rewrite Forall_forall in H. apply H. apply nth_In; auto.
    + rewrite vget_out by lia. lia.
Qed.

Lemma gauss_while_total p done m r t :
  prime p -> (forall rk tk, In (rk, tk) done -> length rk = m /\ rng p rk) -> length r = m ->
  exists r' t', gauss_while (S (S m)) done r t (index_pivot r) p = Ok (r', t').
Proof.
  intros Hp Hd Hr.
  assert (G : forall fuel r t e, length r = m ->
     gauss_while fuel done r t (index_pivot r) p = Err e -> e = OutOfFuel).
  { clear r t Hr. induction fuel as [|f IH]; intros r t e Hr; cbn [gauss_while]; [congruence|].
    destruct (Z.gtb_spec (index_pivot r) (-1)) as [Hpv|Hpv]; [|discriminate].
    destruct (find (fun rt => index_pivot (fst rt) =? index_pivot r) done) as [[rk tk]|] eqn:Ef; [|discriminate].
    apply find_some in Ef. destruct Ef as [Hin Hpk]. cbn [fst] in Hpk. apply Z.eqb_eq in Hpk.
    destruct (index_pivot_cases r) as [[_ Er]|(i & Hi & Er)]; [lia|].
    rewrite Er, Nat2Z.id in *. apply index_pivot_iff in Hpk.
    destruct (Hd rk tk Hin) as [Hlk Hrk].
    destruct (inv_mod_p_prime (vget rk i) p Hp) as (inv & Hinv & _).
    { destruct Hpk as (_ & Hnz & _). specialize (Hrk i). lia. }
    { destruct Hpk as (_ & Hnz & _). specialize (Hrk i). intros D. apply Z.divide_pos_le in D; lia. }
    rewrite Hinv. cbn [bind].
    fold (elim p ((vget r i * inv) mod p) r rk). fold (elim p ((vget r i * inv) mod p) t tk).
    destruct (vany _); [|discriminate]. apply IH. rewrite elim_length; lia. }
  destruct (gauss_while (S (S m)) done r t (index_pivot r) p) as [[r' t']|e] eqn:E; eauto.
  exfalso. pose proof (G _ _ _ _ Hr E) as ->. revert E.
  apply (gauss_while_fuel p done m); auto.
  - intros rk tk Hin. apply (Hd rk tk Hin).
  - pose proof (index_pivot_bound r). lia.
Qed.

(** ** The for loop: invariants *)
Section Cols.
Variables (p : Z) (m N : nat) (Acol : nat -> vec).
Hypothesis Hp2 : 2 <= p.
Hypothesis HA : forall k, (k < N)%nat -> length (Acol k) = m.

(** Facts about the pair [(r, t)] stored for column [j]. *)
Record col_ok (j : nat) (r t : vec) : Prop := {
  co_lr : length r = m;
  co_lt : length t = N;
  co_prod : veq p (vget r) (lc N (vget t) (fun k => vget (Acol k)));
  co_diag : vget t j = 1;
  co_upper : forall i, (j < i)%nat -> vget t i = 0;
  co_trng : rng p t;
  co_rrng : (forall k, (k < N)%nat -> rng p (Acol k)) -> rng p r;
  co_zero : (forall i, vget (Acol j) i = 0) -> (forall i, vget r i = 0) /\ t = vunit N j
}.

Definition dcol (done : list (vec * vec)) (k : nat) : vec * vec := nth k done ([], []).

Record for_inv (done : list (vec * vec)) : Prop := {
  fi_cols : forall k, (k < length done)%nat -> col_ok k (fst (dcol done k)) (snd (dcol done k));
  fi_piv : forall k l, (k < l < length done)%nat ->
     index_pivot (fst (dcol done k)) = index_pivot (fst (dcol done l)) ->
     index_pivot (fst (dcol done l)) = -1;
  fi_red : forall k l, (k < l < length done)%nat ->
     (forall i, vget (fst (dcol done k)) i = 0) -> vget (snd (dcol done l)) k = 0
}.

Lemma for_inv_nil : for_inv [].
Proof. clear Hp2 HA. split; simpl; intros; lia. Qed.

Lemma dcol_snoc done x k :
  dcol (done ++ [x]) k = if Nat.ltb k (length done) then dcol done k
                         else if Nat.eqb k (length done) then x else ([], []).
Proof.
  unfold dcol. destruct (Nat.ltb_spec k (length done)).
  - apply app_nth1; auto.
  - rewrite app_nth2 by auto. destruct (Nat.eqb_spec k (length done)) as [->|Hn].
    + rewrite Nat.sub_diag. reflexivity.
    + destruct (k - length done)%nat as [|[|d]] eqn:E; simpl; auto; lia.
Qed.

Lemma in_dcol done rk tk : In (rk, tk) done -> exists k, (k < length done)%nat /\ dcol done k = (rk, tk).
Proof.
  intros H. apply In_nth with (d := ([], [])) in H. destruct H as (k & Hk & E). exists k. auto.
Qed.

(** Loop invariant of the while loop for column [j = length done]. *)
Definition wh_inv (done : list (vec * vec)) (r t : vec) : Prop :=
  let j := length done in
  length r = m /\ length t = N /\
  veq p (vget r) (lc N (vget t) (fun k => vget (Acol k))) /\
  vget t j = 1 /\ (forall i, (j < i)%nat -> vget t i = 0) /\ rng p t /\
  ((forall k, (k < N)%nat -> rng p (Acol k)) -> rng p r) /\
  (forall k, (k < j)%nat -> (forall i, vget (fst (dcol done k)) i = 0) -> vget t k = 0).

Lemma wh_inv_init done : (length done < N)%nat -> wh_inv done (Acol (length done)) (vunit N (length done)).
Proof.
  intros Hj. set (j := length done) in *. unfold wh_inv. fold j. repeat split.
  - auto.
  - apply vunit_length.
  - intros i. rewrite <- (lc_unit N j (fun k => vget (Acol k)) i) by auto.
    apply cong_eq. unfold lc. apply Zsum_ext. intros k Hk. f_equal. unfold funit. rewrite vget_vunit; auto.
  - rewrite vget_vunit, Nat.eqb_refl; auto.
  - intros i Hi. rewrite vget_vunit by auto. destruct (Nat.eqb_spec i j); auto. lia.
  - rewrite vget_vunit by auto. destruct (Nat.eqb _ _); lia.
  - rewrite vget_vunit by auto. destruct (Nat.eqb _ _); lia.
  - apply H; auto.
  - apply H; auto.
  - intros k Hk _. rewrite vget_vunit by auto. destruct (Nat.eqb_spec k j); auto. lia.
Qed.

Lemma wh_inv_step done r t rk tk i inv : for_inv done ->
  wh_inv done r t -> In (rk, tk) done -> last_nonzero r i -> last_nonzero rk i ->
  inv_mod_p (vget rk i) p = Ok inv ->
  wh_inv done (elim p ((vget r i * inv) mod p) r rk) (elim p ((vget r i * inv) mod p) t tk).
Proof.
  intros FI (Hlr & Hlt & Hpr & Hdg & Hup & Hrt & Hrr & Hrd) Hin Hi Hki Hinv.
  destruct (in_dcol done rk tk Hin) as (k & Hk & Ek).
  pose proof (fi_cols done FI k Hk) as CK. rewrite Ek in CK. cbn [fst snd] in CK.
  destruct CK as [Klr Klt Kpr Kdg Kup Ktr Krr _].
  set (q := (vget r i * inv) mod p).
  assert (Lr : length r = length rk) by congruence.
  assert (Lt : length t = length tk) by congruence.
  unfold wh_inv. set (j := length done) in *. repeat split.
  - rewrite elim_length; auto.
  - rewrite elim_length; auto.
  - intros a. rewrite vget_elim, cong_mod by auto.
    rewrite (Hpr a), (Kpr a).
    unfold lc. rewrite <- Zsum_scale, <- Zsum_sub.
    apply Zsum_cong. intros l Hl. rewrite vget_elim by auto. rewrite cong_mod. apply cong_eq; ring.
  - rewrite vget_elim by auto. rewrite Hdg, (Kup j) by auto.
    rewrite Z.mul_0_r, Z.sub_0_r. apply Z.mod_small; lia.
  - intros a Ha. rewrite vget_elim by auto. rewrite Hup, (Kup a) by lia.
    rewrite Z.mul_0_r; apply Zmod_0_l'.
  - apply rng_elim; auto; lia.
  - apply rng_elim; auto; lia.
  - apply rng_elim; auto; lia.
  - apply rng_elim; auto; lia.
  - intros l Hl Hz. rewrite vget_elim by auto. rewrite (Hrd l Hl Hz).
    assert (E : vget tk l = 0).
    { destruct (lt_eq_lt_dec l k) as [[H|H]|H].
      - pose proof (fi_red done FI l k) as Hred. rewrite Ek in Hred. apply Hred; auto.
      - subst l. rewrite Ek in Hz. cbn [fst] in Hz.
        destruct Hki as (_ & Hnz & _). elim Hnz; auto.
      - apply Kup; auto. }
    rewrite E, Z.mul_0_r; apply Zmod_0_l'.
Qed.

Lemma gauss_while_zero fuel done t :
  forall r, (forall i, vget r i = 0) -> gauss_while (S fuel) done r t (index_pivot r) p = Ok (r, t).
Proof.
  intros r H. apply index_pivot_m1 in H. rewrite H. reflexivity.
Qed.

Lemma for_inv_snoc done r' t' : (length done < N)%nat -> for_inv done ->
  gauss_while (S (S m)) done (Acol (length done)) (vunit N (length done))
     (index_pivot (Acol (length done))) p = Ok (r', t') ->
  for_inv (done ++ [(r', t')]).
Proof.
  intros Hj FI E. set (j := length done) in *.
  destruct (gauss_while_inv p done (wh_inv done) _ _ _ _ _
              (fun r t rk tk i inv => wh_inv_step done r t rk tk i inv FI)
              (wh_inv_init done Hj) E) as [W Hpiv].
  unfold wh_inv in W. fold j in W. destruct W as (Hlr & Hlt & Hpr & Hdg & Hup & Hrt & Hrr & Hrd).
  assert (D1 : forall k, (k < j)%nat -> dcol (done ++ [(r', t')]) k = dcol done k).
  { intros k Hk. rewrite dcol_snoc. fold j. destruct (Nat.ltb_spec k j); auto. lia. }
  assert (D2 : dcol (done ++ [(r', t')]) j = (r', t')).
  { rewrite dcol_snoc. fold j. rewrite Nat.ltb_irrefl, Nat.eqb_refl. reflexivity. }
  assert (HL : length (done ++ [(r', t')]) = S j) by (rewrite app_length; simpl; fold j; lia).
  split; rewrite HL.
  - intros k Hk. destruct (Nat.eq_dec k j) as [->|Hn].
    + rewrite D2. cbn [fst snd]. split; auto.
      intros Hz. rewrite gauss_while_zero in E by auto. injection E as <- <-. auto.
    + rewrite D1 by lia. apply FI. fold j. lia.
  - intros k l Hkl. destruct (Nat.eq_dec l j) as [->|Hn].
    + rewrite D1, D2 by lia. cbn [fst]. intros Eq.
      destruct Hpiv as [|Hpiv]; auto. exfalso.
      apply (Hpiv (fst (dcol done k)) (snd (dcol done k))); auto.
      rewrite <- surjective_pairing. unfold dcol. apply nth_In. fold j. lia.
    + rewrite !D1 by lia. apply FI. fold j. lia.
  - intros k l Hkl. destruct (Nat.eq_dec l j) as [->|Hn].
    + rewrite D1, D2 by lia. cbn [snd]. apply Hrd. lia.
    + rewrite !D1 by lia. apply FI. fold j. lia.
Qed.

Lemma gauss_for_inv todo : forall done out,
  (length done + length todo)%nat = N ->
  (forall k, (k < length todo)%nat ->
     nth k todo ([], []) = (Acol (length done + k), vunit N (length done + k))) ->
  for_inv done -> gauss_for m todo done p = Ok out ->
  for_inv out /\ length out = N.
Proof.
  induction todo as [|[r t] todo IH]; intros done out HN Htodo FI; cbn [gauss_for].
  - intros E; injection E as <-. simpl in HN. split; auto. lia.
  - simpl in HN.
    pose proof (Htodo 0%nat ltac:(simpl; lia)) as H0. rewrite Nat.add_0_r in H0. cbn [nth] in H0.
    injection H0 as -> ->.
    destruct (gauss_while _ _ _ _ _ _) as [[r' t']|] eqn:E; [|discriminate]. cbn [bind].
    apply IH.
    + rewrite app_length; simpl; lia.
    + intros k Hk. rewrite app_length. cbn [length].
      replace (length done + 1 + k)%nat with (length done + S k)%nat by lia.
      apply (Htodo (S k)). simpl; lia.
    + apply for_inv_snoc; auto. lia.
Qed.

Lemma gauss_for_total todo : prime p ->
  (forall k, (k < N)%nat -> rng p (Acol k)) -> forall done,
  (length done + length todo)%nat = N ->
  (forall k, (k < length todo)%nat ->
     nth k todo ([], []) = (Acol (length done + k), vunit N (length done + k))) ->
  for_inv done -> exists out, gauss_for m todo done p = Ok out.
Proof.
  intros Hp HrA. induction todo as [|[r t] todo IH]; intros done HN Htodo FI; cbn [gauss_for]; [eauto|].
  simpl in HN.
  pose proof (Htodo 0%nat ltac:(simpl; lia)) as H0. rewrite Nat.add_0_r in H0. cbn [nth] in H0.
  injection H0 as -> ->.
  destruct (gauss_while_total p done m (Acol (length done)) (vunit N (length done)) Hp) as (r' & t' & E).
  { intros rk tk Hin. destruct (in_dcol done rk tk Hin) as (k & Hk & Ek).
    pose proof (fi_cols done FI k Hk) as CK. rewrite Ek in CK. cbn [fst snd] in CK.
    split; [apply CK|]. apply CK; auto. }
  { apply HA. lia. }
  rewrite E. cbn [bind]. apply IH.
  - rewrite app_length; simpl; lia.
  - intros k Hk. rewrite app_length. cbn [length].
    replace (length done + 1 + k)%nat with (length done + S k)%nat by lia.
    apply (Htodo (S k)). simpl; lia.
  - apply for_inv_snoc; auto. lia.
Qed.

End Cols.

Lemma gauss_for_fuel p m todo : forall done,
  Forall (fun rt => length (fst rt) = m) todo -> Forall (fun rt => length (fst rt) = m) done ->
  gauss_for m todo done p <> Err OutOfFuel.
Proof.
  induction todo as [|[r t] todo IH]; intros done Ht Hd; cbn [gauss_for]; [discriminate|].
  inversion Ht as [|? ? Hr Ht']; subst. cbn [fst] in *.
  assert (Hd' : forall rk tk, In (rk, tk) done -> length rk = length r).
  { intros rk tk Hin. rewrite Forall_forall in Hd. apply (Hd _ Hin). }
  destruct (gauss_while _ _ _ _ _ _) as [[r' t']|e] eqn:E; cbn [bind].
  - apply IH; auto. apply Forall_app. split; auto. constructor; auto. cbn [fst].
    destruct (gauss_while_inv p done (fun r' _ => length r' = length r) _ _ _ _ _
      (fun r t rk tk i inv Hr Hin _ _ _ => eq_trans (elim_length p _ r rk (eq_trans Hr (eq_sym (Hd' rk tk Hin)))) Hr)
      eq_refl E); auto.
  - intros H. injection H as ->. revert E. apply (gauss_while_fuel p done (length r)); auto.
    pose proof (index_pivot_bound r). lia.
Qed.

(** ** gauss_col *)
Lemma nth_cols_mident N k : (k < N)%nat -> col (mident N) k = vunit N k.
Proof.
  intros H. unfold col, mident. cbn [cols].
  rewrite (nth_indep _ [] (vunit N 0)) by (rewrite map_length, seq_length; auto).
  rewrite map_nth, seq_nth by auto. reflexivity.
Qed.

Record gauss_ok (p : Z) (A R T : mat) : Prop := {
  go_nrR : nrows R = nrows A;
  go_ncR : ncols R = ncols A;
  go_nrT : nrows T = ncols A;
  go_ncT : ncols T = ncols A;
  go_lenR : forall j, (j < ncols A)%nat -> length (col R j) = nrows A;
  go_lenT : forall j, (j < ncols A)%nat -> length (col T j) = ncols A;
  go_prod : forall j, (j < ncols A)%nat ->
    veq p (vget (col R j)) (lc (ncols A) (vget (col T j)) (fun k => vget (col A k)));
  go_diag : forall j, (j < ncols A)%nat -> get T j j = 1;
  go_upper : forall i j, (j < i)%nat -> (j < ncols A)%nat -> get T i j = 0;
  go_rngT : forall j, (j < ncols A)%nat -> rng p (col T j);
  go_rngR : (forall k, (k < ncols A)%nat -> rng p (col A k)) ->
            forall j, (j < ncols A)%nat -> rng p (col R j);
  go_piv : forall k l, (k < l < ncols A)%nat ->
    index_pivot (col R k) = index_pivot (col R l) -> index_pivot (col R l) = -1;
  go_red : forall k l, (k < l < ncols A)%nat -> (forall i, get R i k = 0) -> get T k l = 0;
  go_zero : forall j, (j < ncols A)%nat -> (forall i, get A i j = 0) ->
    (forall i, get R i j = 0) /\ col T j = vunit (ncols A) j
}.

Lemma col_map_fst m out j : col (Mat m (map fst out)) j = fst (dcol out j).
Proof. unfold col, dcol. cbn [cols]. change [] with (fst (@nil Z, @nil Z)) at 1. apply map_nth. Qed.
Lemma col_map_snd m out j : col (Mat m (map snd out)) j = snd (dcol out j).
Proof. unfold col, dcol. cbn [cols]. change [] with (snd (@nil Z, @nil Z)) at 1. apply map_nth. Qed.

Lemma wf_col A k : wf_mat A -> (k < ncols A)%nat -> length (col A k) = nrows A.
Proof.
  unfold wf_mat, ncols, col. intros H Hk. rewrite Forall_forall in H. apply H. apply nth_In; auto.
Qed.

Lemma gauss_todo A k : let N := ncols A in
  (k < length (combine (cols A) (cols (mident N))))%nat ->
  nth k (combine (cols A) (cols (mident N))) ([], []) = (col A k, vunit N k).
Proof.
  cbv zeta. intros Hk.
  assert (HL : length (cols A) = length (cols (mident (ncols A)))).
  { unfold mident, ncols. cbn [cols]. rewrite map_length, seq_length. reflexivity. }
  rewrite combine_length, <- HL, Nat.min_id in Hk.
  rewrite combine_nth by auto. f_equal. apply nth_cols_mident; auto.
Qed.

Lemma gauss_todo_length A : length (combine (cols A) (cols (mident (ncols A)))) = ncols A.
Proof.
  rewrite combine_length. unfold mident, ncols. cbn [cols]. rewrite map_length, seq_length. lia.
Qed.

Lemma gauss_col_correct p A R T : 2 <= p -> wf_mat A -> (nrows A <> 0)%nat ->
  gauss_col A p = Ok (R, T) -> gauss_ok p A R T.
Proof.
  intros Hp HA Hr. unfold gauss_col. destruct (Nat.eqb_spec (nrows A) 0); [lia|].
  destruct (gauss_for _ _ _ _) as [out|] eqn:E; [|discriminate]. cbn [bind].
  intros H; injection H as <- <-.
  destruct (gauss_for_inv p (nrows A) (ncols A) (col A) Hp (fun k Hk => wf_col A k HA Hk)
             (combine (cols A) (cols (mident (ncols A)))) [] out) as [FI HL].
  { apply gauss_todo_length. }
  { intros k Hk. cbn [length]. rewrite Nat.add_0_l. apply gauss_todo; auto. }
  { apply for_inv_nil. }
  { exact E. }
  destruct FI as [FC FP FR]. rewrite HL in *.
  split; unfold get; try (intros; rewrite ?col_map_fst, ?col_map_snd in * );
    try (apply FC; auto; fail); cbn [nrows]; auto;
    try (unfold ncols; cbn [cols]; rewrite map_length; exact HL).
  - apply (FP k l); auto.
Qed.

Lemma gauss_col_total p A : prime p -> wf_mat A ->
  (forall k, (k < ncols A)%nat -> rng p (col A k)) ->
  exists R T, gauss_col A p = Ok (R, T).
Proof.
  intros Hp HA Hrg. unfold gauss_col. destruct (Nat.eqb_spec (nrows A) 0); [eauto|].
  pose proof (prime_ge_2 p Hp).
  destruct (gauss_for_total p (nrows A) (ncols A) (col A) ltac:(lia) (fun k Hk => wf_col A k HA Hk)
     (combine (cols A) (cols (mident (ncols A)))) Hp Hrg []) as [out E].
  { apply gauss_todo_length. }
  { intros k Hk. cbn [length]. rewrite Nat.add_0_l. apply gauss_todo; auto. }
  { apply for_inv_nil. }
  rewrite E. cbn [bind]. eauto.
Qed.

(** On any integer matrix and modulus the loops terminate: the only errors are
    those of [inv_mod_p]. *)
Lemma gauss_col_terminates p A : wf_mat A -> gauss_col A p <> Err OutOfFuel.
Proof.
  intros HA. unfold gauss_col. destruct (Nat.eqb_spec (nrows A) 0); [discriminate|].
  destruct (gauss_for _ _ _ _) as [out|e] eqn:E; cbn [bind]; [discriminate|].
  intros H; injection H as ->. revert E. apply gauss_for_fuel; auto.
  apply Forall_forall. intros [r t] Hin. cbn [fst]. apply in_combine_l in Hin.
  unfold wf_mat in HA. rewrite Forall_forall in HA. apply HA; auto.
Qed.
