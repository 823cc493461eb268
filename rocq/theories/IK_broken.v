(** * [image_kernel] with a broken codomain: one radius *)
From Verif Require Import Base ListX SortX Lin Gauss_model Gauss_arith Gauss_col Spec_Gauss Basis_model Basis_props PH_model IK_model IK_pivot IK_lin IK_phase IK_kphase IK_inv IK_loop IK_rel.
From Coq Require Import Znumtheory Sorting.Sorted.
Local Open Scope Z_scope.

(** ** The loop over the image columns does not see that the basis is broken *)
Lemma im_step_broken F aB dyA bi dyB rad p cap n st c : (length (fst (fst st)) < n)%nat ->
  im_step F aB dyA bi dyB rad p 0 cap true st c = im_step F aB (seq 0 n) bi dyB rad p 0 cap false st c.
Proof.
  destruct st as [[acc newp] ker]. cbn [fst]. intros H. unfold im_step.
  assert (E : memn (length acc) (seq 0 n) = true) by (apply memn_In, in_seq; lia).
  match goal with |- context[if ?b then _ else _] => destruct b end; [|reflexivity].
  match goal with |- context[pivot_check_reduce ?a ?b ?c0 ?d ?e ?f] => destruct (pivot_check_reduce a b c0 d e f) as [[[r t] piv']|] end;
    cbn [bind]; [|reflexivity].
  destruct (negb (piv' =? -1)); [reflexivity|]. rewrite E. cbn [negb andb]. rewrite andb_false_r. cbn [andb]. reflexivity.
Qed.

Lemma im_step_length F aB dy bi dyB rad p s cap br st c st' : im_step F aB dy bi dyB rad p s cap br st c = Ok st' ->
  exists c', fst (fst st') = fst (fst st) ++ [c'].
Proof.
  destruct st as [[acc newp] ker]. unfold im_step. cbn [fst].
  match goal with |- context[if ?b then _ else _] => destruct b end; [|intros E; injection E as <-; eexists; reflexivity].
  match goal with |- context[pivot_check_reduce ?a ?b ?c0 ?d ?e ?f] => destruct (pivot_check_reduce a b c0 d e f) as [[[r t] piv']|] end;
    cbn [bind]; [|discriminate].
  destruct (negb (piv' =? -1)); [intros E; injection E as <-; eexists; reflexivity|].
  match goal with |- context[bind ?b _] => destruct b end; cbn [bind]; [|discriminate].
  intros E; injection E as <-. eexists. reflexivity.
Qed.

Lemma im_fold_broken F aB dyA bi dyB rad p cap n l : forall st, (length (fst (fst st)) + length l <= n)%nat ->
  foldM (im_step F aB dyA bi dyB rad p 0 cap true) l st = foldM (im_step F aB (seq 0 n) bi dyB rad p 0 cap false) l st.
Proof.
  induction l as [|c l IH]; intros st H; [reflexivity|]. cbn [foldM length] in *.
  rewrite (im_step_broken F aB dyA bi dyB rad p cap n) by lia.
  destruct (im_step F aB (seq 0 n) bi dyB rad p 0 cap false st c) as [st'|] eqn:E; cbn [bind]; [|reflexivity].
  apply im_step_length in E. destruct E as (c' & E). apply IH. rewrite E, app_length. cbn [length]. lia.
Qed.

(** ** Rows which belong to one column only *)
Section Own.
Variables (p : Z) (n : nat) (act bir dyB : list nat) (rad : Z) (ims : list icol) (Q : nat -> bool).
Hypothesis Hp : prime p.
Hypothesis Hact : StronglySorted lt act.
Hypothesis Hlt : forall i, In i act -> (i < n)%nat.
Hypothesis Hlen : length ims = n.
Hypothesis HQ : forall q, Q q = true -> In q act /\ (q < n)%nat.
Hypothesis Hlc : forall j, (j < n)%nat -> length (ic_col (nth j ims dI)) = n.
Hypothesis Hown : forall q, Q q = true -> (forall j, (j < n)%nat -> j <> q -> cong p (fC ims j q) 0) /\
  (forall i, In i act -> i <> q -> cong p (fC ims q i) 0) /\ ~ cong p (fC ims q q) 0 /\ (pv ims q = Z.of_nat q \/ pv ims q = -2 /\ In q bir).
Hypothesis HnQ : forall j q, (j < n)%nat -> Q j = false -> Q q = true -> pv ims j <> Z.of_nat q.

Definition zq (v : fvec) : Prop := forall q, Q q = true -> cong p (v q) 0.

Lemma pcr_zq : forall fuel prev r t r' t' piv, pivot_check_reduce fuel act prev r t p = Ok (r', t', piv) ->
  length r = n -> zq (vget r) ->
  (forall c, In c prev -> length (fst (fst c)) = n /\ ((exists q, Q q = true /\ snd c = Z.of_nat q) \/ zq (vget (fst (fst c))))) ->
  length r' = n /\ zq (vget r') /\ forall q, Q q = true -> piv <> Z.of_nat q.
Proof.
  induction fuel as [|f IH]; intros prev r t r' t' piv; cbn [pivot_check_reduce]; [discriminate|].
  fold (restr p act r). destruct (index_pivot_cases (restr p act r)) as [[_ E]|(k & Hk & E)].
  - rewrite E. cbn [Z.eqb Pos.eqb]. intros X; injection X as <- <- <-. intros Hl Hz _. split; auto. split; auto. intros q _. lia.
  - assert (Ek : Z.eqb (index_pivot (restr p act r)) (-1) = false) by (apply Z.eqb_neq; lia). rewrite Ek, E, Nat2Z.id.
    destruct (restr_piv p n act Hp Hact Hlt r k Hk) as [Hkl Hpiv]. set (x := nth k act 0%nat) in *.
    assert (Hx : forall q, Q q = true -> zq (vget r) -> Z.of_nat x <> Z.of_nat q).
    { intros q Hq Hz C. apply Nat2Z.inj in C. destruct Hpiv as [Hpiv _]. apply on_nz in Hpiv. destruct Hpiv as [_ Hpiv]. apply Hpiv.
      rewrite C. apply Hz. auto. }
    destruct (find (fun c => snd c =? Z.of_nat x) prev) as [[[rk tk] z]|] eqn:Ef.
    2:{ intros X; injection X as <- <- <-. intros Hl Hz _. split; auto. }
    apply find_some in Ef. destruct Ef as [Hin Ez]. cbn [snd] in Ez. apply Z.eqb_eq in Ez. subst z.
    destruct (inv_mod_p (vget rk x) p) as [inv|]; cbn [bind]; [|discriminate].
    intros X Hl Hz Hprev. pose proof (Hprev _ Hin) as (L & Hc). cbn [fst snd] in L, Hc.
    assert (Hl1 : length (vscale inv rk) = length r) by (unfold vscale; rewrite map_length; congruence).
    apply IH in X; auto.
    + rewrite add_arrays_length; congruence.
    + intros q Hq. rewrite vget_add_arrays by auto. rewrite cong_mod, vget_vscale. rewrite (Hz q Hq).
      destruct Hc as [(q' & Q1 & Q2)|Hc]; [elim (Hx q' Q1 Hz); auto|]. rewrite (Hc q Hq). apply cong_eq. ring.
Qed.

Lemma pcr_own q r t prev fuel r' t' piv : pivot_check_reduce fuel act prev r t p = Ok (r', t', piv) ->
  In q act -> (forall i, In i act -> i <> q -> cong p (vget r i) 0) -> ~ cong p (vget r q) 0 ->
  (forall c, In c prev -> snd c <> Z.of_nat q) -> r' = r /\ piv = Z.of_nat q.
Proof.
  destruct fuel as [|f]; cbn [pivot_check_reduce]; [discriminate|].
  fold (restr p act r). intros X Hq Hr Hn Hprev. destruct (index_pivot_cases (restr p act r)) as [[_ E]|(k & Hk & E)].
  - exfalso. apply (restr_zero p n act Hp Hlt) in E. apply Hn. specialize (E q). unfold on, mem in E.
    replace (memn q act) with true in E by (symmetry; apply memn_In; auto). exact E.
  - assert (Ek : Z.eqb (index_pivot (restr p act r)) (-1) = false) by (apply Z.eqb_neq; lia). rewrite Ek, E, Nat2Z.id in X.
    destruct (restr_piv p n act Hp Hact Hlt r k Hk) as [Hkl Hpiv]. set (x := nth k act 0%nat) in *.
    assert (x = q).
    { destruct Hpiv as [Hpiv _]. apply on_nz in Hpiv. destruct Hpiv as [M Hpiv]. destruct (Nat.eq_dec x q); auto. elim Hpiv. apply Hr; auto.
      apply memn_In. auto. }
    subst x. rewrite H in X. destruct (find (fun c => snd c =? Z.of_nat q) prev) as [[[rk tk] z]|] eqn:Ef.
    + apply find_some in Ef. destruct Ef as [Hin Ez]. apply Z.eqb_eq in Ez. elim (Hprev _ Hin). auto.
    + injection X as <- <- <-. auto.
Qed.

Definition owned (acc : list icol) : Prop := forall j, (j < length acc)%nat ->
  length (ic_col (nth j acc dI)) = n /\
  (Q j = true -> ic_col (nth j acc dI) = ic_col (nth j ims dI) /\ pv acc j = Z.of_nat j) /\
  (Q j = false -> zq (fC acc j) /\ forall q, Q q = true -> pv acc j <> Z.of_nat q).

Lemma owned_snoc acc c : owned acc -> length (ic_col c) = n ->
  (Q (length acc) = true -> ic_col c = ic_col (nth (length acc) ims dI) /\ ic_piv c = Z.of_nat (length acc)) ->
  (Q (length acc) = false -> zq (vget (ic_col c)) /\ forall q, Q q = true -> ic_piv c <> Z.of_nat q) -> owned (acc ++ [c]).
Proof.
  intros H Hl H1 H2 j Hj. rewrite app_length in Hj. cbn [length] in Hj. unfold fC, pv. destruct (Nat.eq_dec j (length acc)) as [->|Hn].
  - rewrite nth_snoc_r. auto.
  - rewrite nth_snoc_l by lia. apply H. lia.
Qed.

Lemma owned_step F dy cap br acc newp ker st' : owned acc -> (length acc < n)%nat ->
  im_step F act dy bir dyB rad p 0 cap br (acc, newp, ker) (nth (length acc) ims dI) = Ok st' -> owned (fst (fst st')).
Proof.
  intros HO Hl. unfold im_step. set (j := length acc) in *. set (c := nth j ims dI).
  assert (Hprev : forall c0, In c0 (map (fun c => (ic_col c, ic_T c, ic_piv c)) acc) -> exists l, (l < j)%nat /\ c0 = (ic_col (nth l acc dI), ic_T (nth l acc dI), pv acc l)).
  { intros c0 H. apply in_map_iff in H. destruct H as (c1 & <- & H). apply In_nth with (d := dI) in H. destruct H as (l & Hl' & <-). exists l. auto. }
  assert (Hpre2 : forall c0, In c0 (map (fun c => (ic_col c, ic_T c, ic_piv c)) acc) -> length (fst (fst c0)) = n /\ ((exists q, Q q = true /\ snd c0 = Z.of_nat q) \/ zq (vget (fst (fst c0))))).
  { intros c0 H. destruct (Hprev c0 H) as (l & Hl' & ->). destruct (HO l Hl') as (L & O1 & O2). cbn [fst snd]. split; auto.
    destruct (Q l) eqn:E; [left; exists l; split; auto; apply O1; auto|right; apply O2; auto]. }
  match goal with |- context[if ?b then _ else _] => destruct b eqn:Et end.
  - destruct (pivot_check_reduce (pcr_fuel act p) act (map (fun c => (ic_col c, ic_T c, ic_piv c)) acc) (ic_col c) (ic_T c) p) as [[[r t] piv']|] eqn:E;
      cbn [bind]; [|discriminate].
    assert (X : length r = n /\ (Q j = true -> r = ic_col (nth j ims dI) /\ piv' = Z.of_nat j) /\ (Q j = false -> zq (vget r) /\ forall q, Q q = true -> piv' <> Z.of_nat q)).
    { destruct (Q j) eqn:Ej.
      - destruct (Hown j Ej) as (O1 & O2 & O3 & O4). apply (pcr_own j) in E; auto.
        + destruct E as [-> ->]. split; [apply Hlc; auto|]. split; [auto|discriminate].
        + apply HQ; auto.
        + intros c0 H. destruct (Hprev c0 H) as (l & Hl' & ->). cbn [snd]. destruct (HO l Hl') as (_ & P1 & P2). destruct (Q l) eqn:El.
          * destruct (P1 eq_refl) as [_ ->]. lia.
          * apply P2; auto.
      - apply pcr_zq in E; auto; [|apply Hlc; auto|].
        + destruct E as (E1 & E2 & E3). split; auto. split; [discriminate|auto].
        + intros q Hq. apply (proj1 (Hown q Hq) j Hl). intros C. congruence. }
    destruct X as (L & X1 & X2). destruct (negb (piv' =? -1)).
    + intros Y; injection Y as <-. cbn [fst]. apply owned_snoc; auto.
    + match goal with |- context[bind ?b _] => destruct b end; cbn [bind]; [|discriminate].
      intros Y; injection Y as <-. cbn [fst Nat.ltb Nat.leb]. apply owned_snoc; auto.
  - intros Y; injection Y as <-. cbn [fst]. apply owned_snoc; auto; [apply Hlc; auto| |].
    + fold j. intros Ej. split; auto. destruct (Hown j Ej) as (_ & _ & _ & [O|[O1 O2]]); auto.
      apply orb_false_iff in Et. destruct Et as [_ Et]. apply memn_In in O2. congruence.
    + fold j. intros Ej. split; [|intros q Hq; apply HnQ; auto]. intros q Hq. apply (proj1 (Hown q Hq) j Hl). intros C. congruence.
Qed.

Lemma owned_fold F dy cap br : forall todo st st', owned (fst (fst st)) -> (length (fst (fst st)) + length todo = n)%nat ->
  (forall k, (k < length todo)%nat -> nth k todo dI = nth (length (fst (fst st)) + k) ims dI) ->
  foldM (im_step F act dy bir dyB rad p 0 cap br) todo st = Ok st' -> owned (fst (fst st')).
Proof.
  induction todo as [|c todo IH]; intros st st' HO Hl Hn; cbn [foldM].
  - intros X; injection X as <-. auto.
  - cbn [length] in *. destruct (im_step F act dy bir dyB rad p 0 cap br st c) as [st1|] eqn:E; cbn [bind]; [|discriminate].
    pose proof (im_step_length _ _ _ _ _ _ _ _ _ _ _ _ _ E) as (c' & Ec). destruct st as [[acc newp] ker]. cbn [fst] in *.
    apply IH.
    + specialize (Hn 0%nat ltac:(lia)). cbn [nth] in Hn. rewrite Nat.add_0_r in Hn. subst c.
      apply owned_step in E; auto. lia.
    + rewrite Ec, app_length. cbn [length]. lia.
    + intros k Hk. rewrite Ec, app_length. cbn [length]. specialize (Hn (S k) ltac:(lia)). cbn [nth] in Hn. rewrite Hn. f_equal. lia.
Qed.
End Own.
