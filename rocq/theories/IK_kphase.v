(** * The loop of [image_kernel] over the kernel columns *)
From Verif Require Import Base ListX SortX Lin Gauss_model Gauss_arith Gauss_col Gauss_solve Gauss_bar Basis_model PH_model PH_step IK_model IK_pivot IK_lin IK_phase.
From Verif Require LC_props.
From Coq Require Import Znumtheory Sorting.Sorted.
Local Open Scope Z_scope.

Lemma sorted_lt_NoDup l : StronglySorted lt l -> NoDup l.
Proof.
  induction 1 as [|x l Hs IH Hx]; constructor; auto. intros Hin.
  rewrite Forall_forall in Hx. specialize (Hx x Hin). lia.
Qed.

Lemma multiply_sub (p : Z) F (act : list nat) (r : vec) i : wf_mat F -> p <> 0 -> StronglySorted lt act ->
  (forall k, In k act -> (k < ncols F)%nat) ->
  cong p (vget (col (multiply_mod_p (take_cols F act) (Mat (length act) [map (vget r) act]) p) 0) i)
         (lc (ncols F) (on (mem act) (vget r)) (fF F) i).
Proof.
  intros HF Hp Hs Hlt.
  assert (HF' : wf_mat (take_cols F act)).
  { unfold wf_mat, take_cols. cbn [cols nrows]. apply Forall_forall. intros c Hc. apply in_map_iff in Hc.
    destruct Hc as (j & <- & Hj). apply wf_col; auto. }
  rewrite (multiply_col p (take_cols F act) (length act) (map (vget r) act) i HF' Hp).
  2:{ intros k Hk. apply vget_out. rewrite map_length. unfold ncols, take_cols in Hk. cbn [cols] in Hk. rewrite map_length in Hk. auto. }
  apply cong_eq. unfold lc. replace (ncols (take_cols F act)) with (length act) by (unfold ncols, take_cols; cbn [cols]; rewrite map_length; auto).
  rewrite <- (LC_props.Zsum_select (ncols F) act (fun k => on (mem act) (vget r) k * fF F k i)); auto.
  - apply Zsum_ext. intros k Hk. rewrite (vget_nth_map (vget r) 0%nat) by auto. unfold on, mem, fF.
    rewrite nth_take_cols by auto. replace (memn (nth k act 0%nat) act) with true by (symmetry; apply memn_In, nth_In; auto). reflexivity.
  - apply sorted_lt_NoDup; auto.
  - intros g Hg Hn. unfold on, mem. destruct (memn g act) eqn:E; [apply memn_In in E; tauto|]. ring.
Qed.

Lemma overwrite_get act cyc t i : (length cyc <= length t)%nat ->
  vget (overwrite act cyc t) i = if memn i act then vget cyc i else vget t i.
Proof.
  intros H. unfold overwrite. destruct (lt_dec i (length t)) as [Hi|Hi].
  - rewrite (vget_nth_map _ 0%nat) by (rewrite seq_length; auto). rewrite seq_nth by auto. reflexivity.
  - rewrite !vget_out; [destruct (memn i act); auto|lia|lia|rewrite map_length, seq_length; lia].
Qed.

Lemma count_alive_set l j c d : ic_piv c = -1 -> ic_piv d = -2 -> (count_alive (list_set l j c) <= count_alive l)%nat.
Proof.
  intros Hc Hd. revert j. induction l as [|x l IH]; intros [|j]; cbn [list_set]; auto.
  - unfold count_alive. cbn [filter]. rewrite Hc. cbn [Z.eqb Pos.eqb negb]. destruct (negb (ic_piv x =? -1)); cbn [length]; lia.
  - unfold count_alive in *. cbn [filter]. destruct (negb (ic_piv x =? -1)); cbn [length]; specialize (IH j); lia.
Qed.

Section KerPhase.
Variables (p : Z) (F : mat) (actA actB dyA : list nat) (rad : Z).
Let m := nrows F.
Let n := ncols F.
Hypothesis Hp : prime p.
Hypothesis HF : wf_mat F.
Hypothesis HactA : StronglySorted lt actA.
Hypothesis HactAn : forall i, In i actA -> (i < n)%nat.

Local Lemma pp : 2 <= p.
Proof. apply prime_ge_2; auto. Qed.

Definition zA (v : fvec) : Prop := veq p (on (mem actA) v) fzero.
Definition pA (v : fvec) (q : nat) : Prop := is_piv p (on (mem actA) v) q.

Definition wf_kc (c : kcol) : Prop := length (kc_col c) = n /\ nonneg (kc_col c).

Variable ker : list kcol.
Variable ims0 : list icol.
Hypothesis Hwf : forall k, (k < length ker)%nat -> wf_kc (nth k ker dK).
Hypothesis Hstay : forall k, (k < length ker)%nat -> 0 <= kp ker k -> ~ In (Z.to_nat (kp ker k)) dyA ->
  pA (fK ker k) (Z.to_nat (kp ker k)).
Hypothesis Hdist : forall i j, (i < length ker)%nat -> (j < length ker)%nat -> i <> j -> 0 <= kp ker i -> kp ker i <> kp ker j.
Hypothesis Hrange : forall k, (k < length ker)%nat -> kp ker k = -1 \/ 0 <= kp ker k.
Hypothesis Hker : forall k, (k < length ker)%nat -> zB p actB (lc n (on (mem actA) (fK ker k)) (fF F)).
Hypothesis Hims : length ims0 = n.
Hypothesis Hiwf : forall j, (j < n)%nat -> wf_ic F (nth j ims0 dI).

Record ker_col_ok (acc : list kcol) (k : nat) : Prop := {
  ko_wf : wf_kc (nth k acc dK);
  ko_birth : kc_birth (nth k acc dK) = kc_birth (nth k ker dK);
  ko_comb : exists b : nat -> Z, (forall i, b i <> 0 -> (i < k)%nat /\ 0 <= kp acc i) /\
     (forall i, cong p (fK acc k i) (fK ker k i + lc k b (fK acc) i));
  ko_case :
    (0 <= kp acc k /\ 0 <= kp ker k /\ pA (fK acc k) (Z.to_nat (kp acc k)) /\ kc_death (nth k acc dK) = kc_death (nth k ker dK)) \/
    (kp ker k = -1 /\ nth k acc dK = nth k ker dK) \/
    (kp acc k = -1 /\ 0 <= kp ker k /\ zA (fK acc k) /\ kc_death (nth k acc dK) = rad)
}.

Record im_upd (acc : list kcol) (ims : list icol) (j : nat) : Prop := {
  iu_wf : wf_ic F (nth j ims dI);
  iu_birth : ic_birth (nth j ims dI) = ic_birth (nth j ims0 dI);
  iu_case :
    nth j ims dI = nth j ims0 dI \/
    (pv ims j = -1 /\ pv ims0 j = -1 /\ ic_col (nth j ims dI) = ic_col (nth j ims0 dI) /\
       ic_T (nth j ims dI) = ic_T (nth j ims0 dI) /\ ic_death (nth j ims dI) = rad /\ In j actA /\ exists i, In i dyA) \/
    (pv ims j = -1 /\ pv ims0 j <> -1 /\ ic_death (nth j ims dI) = rad /\ (In j actA /\ exists i, In i dyA) /\
       exists k, (k < length acc)%nat /\ kp acc k = Z.of_nat j /\
         (forall i, cong p (fC ims j i) (lc n (on (mem actA) (fK acc k)) (fF F) i)) /\
         zB p actB (fC ims j) /\
         (forall i, fT ims j i = if mem actA i then fK acc k i else fT ims0 j i))
}.

Record kgood (acc : list kcol) (newp : list Z) (ims : list icol) : Prop := {
  kg_cols : forall k, (k < length acc)%nat -> ker_col_ok acc k;
  kg_dist : forall i j, (i < length acc)%nat -> (j < length acc)%nat -> i <> j -> 0 <= kp acc i -> kp acc i <> kp acc j;
  kg_newp : forall j, (j < length acc)%nat -> 0 <= kp acc j -> In (kp acc j) newp \/ kp acc j = kp ker j;
  kg_newp1 : forall x, In x newp -> exists j, (j < length acc)%nat /\ kp acc j = x /\ 0 <= x /\ pv ims (Z.to_nat x) = -1 /\ exists i, In i dyA;
  kg_cov : forall k, (k < length acc)%nat -> 0 <= kp ker k -> ~ In (Z.to_nat (kp ker k)) dyA ->
    exists k', (k' < length acc)%nat /\ kp acc k' = kp ker k;
  kg_ims : length ims = n;
  kg_upd : forall j, (j < n)%nat -> im_upd acc ims j;
  kg_count : (count_alive ims <= count_alive ims0)%nat
}.

Lemma kp_snoc acc c j : (j < length acc)%nat -> kp (acc ++ [c]) j = kp acc j.
Proof. intros H. unfold kp. rewrite nth_snoc_l; auto. Qed.
Lemma fK_snoc acc c j : (j < length acc)%nat -> fK (acc ++ [c]) j = fK acc j.
Proof. intros H. unfold fK. rewrite nth_snoc_l; auto. Qed.

Lemma kcol_ok_snoc acc c k : (k < length acc)%nat -> ker_col_ok acc k -> ker_col_ok (acc ++ [c]) k.
Proof.
  intros Hk [H1 H2 (b & Hb & Hb1) H4]. constructor; rewrite ?nth_snoc_l by auto; auto.
  - exists b. split.
    + intros i Hi. destruct (Hb i Hi). split; auto. rewrite kp_snoc by lia. auto.
    + intros i. rewrite fK_snoc by auto. rewrite Hb1. rewrite (lc_ext_dom k b (fK acc) (fK (acc ++ [c]))); [reflexivity|].
      intros l Hl. rewrite fK_snoc by lia. reflexivity.
  - rewrite fK_snoc, kp_snoc by auto. exact H4.
Qed.

Lemma im_upd_snoc acc c ims j : im_upd acc ims j -> im_upd (acc ++ [c]) ims j.
Proof.
  intros [H1 H2 H3]. constructor; auto. destruct H3 as [H3|[H3|(A1 & A2 & A3 & A4 & k & Hk & Ek & R)]]; auto.
  right; right. repeat (split; [assumption|]). exists k. rewrite app_length, kp_snoc, fK_snoc by auto. split; [lia|]. auto.
Qed.

Lemma kgood_snoc acc newp newp' ims ims' c :
  kgood acc newp ims ->
  ker_col_ok (acc ++ [c]) (length acc) ->
  (0 <= kc_piv c -> forall i, (i < length acc)%nat -> kp acc i <> kc_piv c) ->
  (0 <= kc_piv c -> In (kc_piv c) newp' \/ kc_piv c = kp ker (length acc)) ->
  (forall x, In x newp' -> In x newp \/ x = kc_piv c /\ 0 <= x /\ pv ims' (Z.to_nat x) = -1 /\ exists i, In i dyA) -> incl newp newp' ->
  (0 <= kp ker (length acc) -> ~ In (Z.to_nat (kp ker (length acc))) dyA ->
     In (kp ker (length acc)) newp \/ kc_piv c = kp ker (length acc)) ->
  (forall j, pv ims j = -1 -> pv ims' j = -1) ->
  length ims' = n -> (forall j, (j < n)%nat -> im_upd (acc ++ [c]) ims' j) -> (count_alive ims' <= count_alive ims)%nat ->
  kgood (acc ++ [c]) newp' ims'.
Proof.
  intros [G1 G2 G3 G4 G4' G5 G6 G7] Hc Hd Hnp Hnp0 Hincl Hcv Hm1 Hl' Hu Hcnt.
  assert (Hsn : kp (acc ++ [c]) (length acc) = kc_piv c) by (unfold kp; rewrite nth_snoc_r; auto).
  assert (Hl : forall j, (j < length (acc ++ [c]))%nat -> (j < length acc)%nat \/ j = length acc).
  { intros j. rewrite app_length. cbn [length]. lia. }
  constructor; auto.
  - intros j Hj. destruct (Hl j Hj) as [H| ->]; auto. apply kcol_ok_snoc; auto.
  - intros i j Hi Hj Hij Hpi. destruct (Hl i Hi) as [H| ->]; destruct (Hl j Hj) as [H'| ->].
    + rewrite !kp_snoc in * by auto. apply G2; auto.
    + rewrite Hsn. rewrite kp_snoc in * by auto. destruct (Z_lt_le_dec (kc_piv c) 0); [lia|]. apply Hd; auto.
    + rewrite Hsn in *. rewrite kp_snoc by auto. intros E. apply (Hd Hpi j H'). auto.
    + lia.
  - intros j Hj Hpj. destruct (Hl j Hj) as [H| ->].
    + rewrite kp_snoc in * by auto. destruct (G3 j H Hpj); auto.
    + rewrite Hsn in *. auto.
  - intros x Hx. destruct (Hnp0 x Hx) as [H|(-> & H0 & H1 & H2)].
    + destruct (G4 x H) as (j & Hj & E & H0 & H1 & H2). exists j. rewrite app_length, kp_snoc by auto. cbn [length]. repeat split; auto. lia.
    + exists (length acc). rewrite app_length. cbn [length]. repeat split; auto. lia.
  - intros k Hk Hk0 Hkd. destruct (Hl k Hk) as [H| ->].
    + destruct (G4' k H Hk0 Hkd) as (k' & Hk' & E). exists k'. rewrite app_length, kp_snoc by auto. split; auto. lia.
    + destruct (Hcv Hk0 Hkd) as [X|X].
      * destruct (G4 _ X) as (j & Hj & E & _). exists j. rewrite app_length, kp_snoc by auto. split; auto. lia.
      * exists (length acc). rewrite Hsn. split; auto.
  - lia.
Qed.

Lemma ker_span_zB acc newp ims k : kgood acc newp ims -> (length acc <= length ker)%nat -> (k < length acc)%nat ->
  zB p actB (lc n (on (mem actA) (fK acc k)) (fF F)).
Proof.
  intros G Hle. induction k as [k IH] using lt_wf_ind. intros Hk.
  destruct (kg_cols _ _ _ G k Hk) as [_ _ (b & Hb & Hb1) _].
  apply (zon_cong p (mem actB) (fun i => lc n (on (mem actA) (fK ker k)) (fF F) i + lc k b (fun l => lc n (on (mem actA) (fK acc l)) (fF F)) i)).
  - intros i _. rewrite <- lc_lc, <- lc_add. apply lc_cong; [|reflexivity]. intros x Hx.
    rewrite <- (on_lc (mem actA) k b (fK acc)), <- on_add. unfold on. destruct (mem actA x); [|reflexivity]. symmetry. apply Hb1.
  - apply zon_add; [apply Hker; lia|]. apply zon_lc. intros l Hl _. apply IH; lia.
Qed.

Lemma ker_step_good acc newp ims k : kgood acc newp ims -> (length acc < length ker)%nat -> nth (length acc) ker dK = k ->
  exists k' newp' ims', ker_step F actA actB dyA rad p (acc, newp, ims) k = Ok (acc ++ [k'], newp', ims') /\
    kgood (acc ++ [k']) newp' ims'.
Proof.
  intros G Hl Ek. pose proof pp as H2.
  assert (Hk : wf_kc k) by (rewrite <- Ek; apply Hwf; auto). destruct Hk as [Hk1 Hk2].
  assert (Ekp : kp ker (length acc) = kc_piv k) by (unfold kp; rewrite Ek; auto).
  assert (EfK : forall i, fK ker (length acc) i = vget (kc_col k) i) by (intros; unfold fK; rewrite Ek; auto).
  unfold ker_step. destruct (memi (kc_piv k) dyA || memz (kc_piv k) newp)%bool eqn:Etr.
  - (* reduced *)
    assert (Hpos : 0 <= kc_piv k).
    { apply orb_prop in Etr. destruct Etr as [E|E].
      - apply memi_In in E. destruct E as (i & _ & ->). lia.
      - apply memz_In in E. destruct (kg_newp1 _ _ _ G _ E) as (j & _ & _ & H & _). auto. }
    assert (Hdy : exists i, In i dyA).
    { apply orb_prop in Etr. destruct Etr as [E|E].
      - apply memi_In in E. destruct E as (i & Hi & _). eauto.
      - apply memz_In in E. destruct (kg_newp1 _ _ _ G _ E) as (j & _ & _ & _ & _ & H). auto. }
    assert (Hcv : forall z, 0 <= kp ker (length acc) -> ~ In (Z.to_nat (kp ker (length acc))) dyA ->
      In (kp ker (length acc)) newp \/ z = kp ker (length acc)).
    { intros z H0 H1. left. rewrite Ekp in *. apply orb_prop in Etr. destruct Etr as [E|E].
      - apply memi_In in E. destruct E as (i & Hi & E). rewrite E, Nat2Z.id in H1. tauto.
      - apply memz_In in E. auto. }
    set (prev := map (fun c => (kc_col c, [], kc_piv c)) acc : list (vec * vec * Z)).
    assert (Hpl : length prev = length acc) by (unfold prev; apply map_length).
    assert (Hpn : forall l, (l < length acc)%nat -> nth l prev ([], [], 0) = (kc_col (nth l acc dK), [], kc_piv (nth l acc dK))).
    { intros l Hl'. unfold prev. rewrite (nth_map _ acc l dK) by auto. reflexivity. }
    destruct (pcr_spec p n actA Hp HactA HactAn prev 0) with (fuel := pcr_fuel actA p) (r := kc_col k) (t := @nil Z)
      as (r & t' & piv & b & E1 & L1 & L2 & N1 & N2 & Hb & C1 & C2 & Hfin); auto.
    { apply Forall_forall. intros x Hx. unfold prev in Hx. apply in_map_iff in Hx. destruct Hx as (y & <- & Hy).
      apply In_nth with (d := dK) in Hy. destruct Hy as (l & Hl' & <-).
      destruct (kg_cols _ _ _ G l Hl') as [(W1 & W2) _ _ Wc].
      unfold pv_ok. split; auto. split; auto. split; [intros i; rewrite vget_out by (cbn; lia); lia|]. intros Hq.
      destruct Wc as [(_ & _ & Q & _)|[(Q1 & Q2)|(Q1 & _)]].
      - exact Q.
      - rewrite Q2 in Hq. unfold kp in Q1. lia.
      - unfold kp in Q1. lia. }
    { apply Forall_forall. intros x Hx. unfold prev in Hx. apply in_map_iff in Hx. destruct Hx as (y & <- & Hy). reflexivity. }
    { intros i. rewrite vget_out by (cbn; lia). lia. }
    { apply (measure_fuel p n); auto. }
    fold prev. rewrite E1. cbn [bind].
    assert (Hcomb : forall kd piv', exists b0 : nat -> Z,
       (forall i, b0 i <> 0 -> (i < length acc)%nat /\ 0 <= kp (acc ++ [KCol (kc_birth k) kd r piv']) i) /\
       (forall i, cong p (fK (acc ++ [KCol (kc_birth k) kd r piv']) (length acc) i)
          (fK ker (length acc) i + lc (length acc) b0 (fK (acc ++ [KCol (kc_birth k) kd r piv'])) i))).
    { intros kd piv'. exists (fun i => if Nat.ltb i (length acc) then b i else 0). split.
      - intros i Hi. destruct (Nat.ltb_spec i (length acc)) as [Hi'|]; [|lia]. split; auto.
        rewrite kp_snoc by auto. specialize (Hb i ltac:(lia) Hi). unfold pq in Hb. rewrite Hpn in Hb by auto. exact Hb.
      - intros i. unfold fK at 1. rewrite nth_snoc_r. cbn [kc_col]. rewrite C1, EfK, Hpl. apply cong_eq. f_equal. unfold lc.
        apply Zsum_ext. intros l Hl'. assert (X : Nat.ltb l (length acc) = true) by (apply Nat.ltb_lt; auto). rewrite X.
        unfold pr. rewrite Hpn, fK_snoc by auto. reflexivity. }
    destruct Hfin as [[-> Hz]|(q & -> & Hq & Hqa & Hfr)].
    + (* dies *)
      cbn [Z.eqb Pos.eqb negb]. do 3 eexists. split; [reflexivity|].
      apply (kgood_snoc acc newp newp ims ims); auto.
      * constructor.
        -- rewrite nth_snoc_r. split; auto.
        -- rewrite nth_snoc_r, Ek. reflexivity.
        -- apply Hcomb.
        -- right; right. unfold kp at 1, fK. rewrite !nth_snoc_r. cbn [kc_piv kc_col kc_death]. repeat split; auto. lia.
      * cbn [kc_piv]. lia.
      * apply incl_refl.
      * apply G.
      * intros j Hj. apply im_upd_snoc. apply (kg_upd _ _ _ G); auto.
    + (* new pivot *)
      assert (Eq : (Z.of_nat q =? -1) = false) by (apply Z.eqb_neq; lia). rewrite Eq. cbn [negb]. rewrite Nat2Z.id.
      pose proof (kg_ims _ _ _ G) as Hil.
      assert (Hqn : (q < n)%nat) by auto.
      rewrite (nth_err_ok ims q dI) by lia. cbn [bind].
      set (nc := col (multiply_mod_p (take_cols F actA) (Mat (length actA) [map (vget r) actA]) p) 0).
      set (k' := KCol (kc_birth k) (kc_death k) r (Z.of_nat q)).
      assert (Hnc : forall i, cong p (vget nc i) (lc n (on (mem actA) (vget r)) (fF F) i)).
      { intros i. apply multiply_sub; auto. lia. }
      assert (Hcol : ker_col_ok (acc ++ [k']) (length acc)).
      { constructor.
        - rewrite nth_snoc_r. split; auto.
        - rewrite nth_snoc_r, Ek. reflexivity.
        - apply Hcomb.
        - left. unfold kp at 1 3, fK. rewrite !nth_snoc_r. cbn [kc_piv kc_col k' kc_death]. rewrite Nat2Z.id, Ek. repeat split; auto; try lia; apply Hq. }
      assert (HzB : zB p actB (vget nc)).
      { apply (zon_cong p (mem actB) (lc n (on (mem actA) (vget r)) (fF F))); [intros i _; symmetry; apply Hnc|].
        destruct Hcol as [_ _ (b0 & Hb0 & Hb1) _].
        apply (zon_cong p (mem actB) (fun i => lc n (on (mem actA) (fK ker (length acc))) (fF F) i
           + lc (length acc) b0 (fun l => lc n (on (mem actA) (fK acc l)) (fF F)) i)).
        - intros i _. rewrite <- lc_lc, <- lc_add. apply lc_cong; [|reflexivity]. intros x Hx.
          rewrite <- (on_lc (mem actA) (length acc) b0 (fK acc)), <- on_add. unfold on. destruct (mem actA x); [|reflexivity].
          specialize (Hb1 x). unfold fK at 1 in Hb1. rewrite nth_snoc_r in Hb1. cbn [k' kc_col] in Hb1. rewrite Hb1.
          rewrite (lc_ext_dom (length acc) b0 (fK (acc ++ [k'])) (fK acc)); [reflexivity|]. intros l Hl'. rewrite fK_snoc by auto. reflexivity.
        - apply zon_add; [apply Hker; lia|]. apply zon_lc. intros l Hl' _. apply (ker_span_zB acc newp ims); auto. lia. }
      assert (HzB' : existsb (fun i => negb (vget nc i =? 0)) actB = false).
      { apply Bool.not_true_iff_false. intros X. apply existsb_exists in X. destruct X as (i & Hi & X).
        assert (Y : cong p (vget nc i) 0). { apply (zon_at p (mem actB)); auto. apply memn_In. auto. }
        apply cong0_small in Y; [rewrite Y in X; discriminate|].
        apply multiply_col_bound. lia. }
      rewrite HzB'.
      set (c := nth q ims dI).
      set (c2 := if negb (ic_piv c =? -1) then ICol (ic_birth c) rad nc (overwrite actA r (ic_T c)) (-1) else set_death c rad).
      do 3 eexists. split; [reflexivity|]. fold c. fold c2.
      destruct (kg_upd _ _ _ G q Hqn) as [U1 U2 U3]. fold c in U1, U2, U3.
      destruct U1 as (U1a & U1b & U1c & U1d).
      assert (Ec2 : ic_piv c2 = -1).
      { unfold c2. destruct (Z.eqb_spec (ic_piv c) (-1)); cbn [negb set_death ic_piv]; auto. }
      apply (kgood_snoc acc newp (newp ++ [Z.of_nat q]) ims _ k'); auto.
      * cbn [k' kc_piv]. intros _ i Hi. specialize (Hfr i ltac:(lia)). unfold pq in Hfr. rewrite Hpn in Hfr by auto. exact Hfr.
      * cbn [k' kc_piv]. intros _. left. apply in_or_app. right; left; auto.
      * intros x Hx. apply in_app_or in Hx. destruct Hx as [Hx|[<-|[]]]; auto. right. split; auto. split; [lia|].
        rewrite Nat2Z.id. unfold pv. rewrite nth_list_set, Nat.eqb_refl.
        destruct (Nat.ltb_spec q (length ims)); [|lia]. split; [exact Ec2|auto].
      * intros x Hx. apply in_or_app; auto.
      * intros j Hj. unfold pv. rewrite nth_list_set. destruct (Nat.eqb j q && Nat.ltb q (length ims))%bool; auto.
      * rewrite list_set_length. auto.
      * intros j Hj. destruct (Nat.eq_dec j q) as [->|Hn].
        2:{ destruct (im_upd_snoc acc k' ims j (kg_upd _ _ _ G j Hj)) as [V1 V2 V3].
            apply Nat.eqb_neq in Hn.
            constructor; unfold pv, fC, fT in *; rewrite ?nth_list_set, ?Hn; cbn [andb]; auto. }
        assert (Enth : nth q (list_set ims q c2) dI = c2).
        { rewrite nth_list_set, Nat.eqb_refl. destruct (Nat.ltb_spec q (length ims)); [reflexivity|lia]. }
        constructor.
        -- rewrite Enth. unfold c2. destruct (negb (ic_piv c =? -1)).
           ++ repeat split; cbn [ic_col ic_T].
              ** unfold nc. rewrite multiply_col_length. reflexivity.
              ** unfold overwrite. rewrite map_length, seq_length. auto.
              ** apply multiply_col_nonneg. lia.
              ** intros i. fold n in U1b. rewrite overwrite_get by lia. destruct (memn i actA); auto.
           ++ repeat split; auto.
        -- rewrite Enth. rewrite <- U2. unfold c2. destruct (negb (ic_piv c =? -1)); reflexivity.
        -- unfold pv at 1 3. unfold fC, fT at 1. rewrite Enth. destruct (Z.eqb_spec (ic_piv c) (-1)) as [Ep|Ep].
           ++ assert (X : c2 = set_death c rad). { unfold c2. first [reflexivity | rewrite Ep; reflexivity]. }
              rewrite X. cbn [set_death ic_piv ic_col ic_T ic_death].
              destruct U3 as [U3|[(A1 & A2 & A3 & A4 & A5)|(A1 & A2 & A3 & A4 & l & Hll & El & R)]].
              ** right; left. rewrite <- U3. unfold pv. rewrite <- U3. repeat (split; [auto|]). auto.
              ** right; left. repeat (split; [auto|]). auto.
              ** right; right. split; [exact Ep|]. split; [exact A2|]. split; [reflexivity|]. split; [auto|].
                 exists l. rewrite app_length, kp_snoc, fK_snoc by auto. split; [lia|]. split; [exact El|]. exact R.
           ++ assert (X : c2 = ICol (ic_birth c) rad nc (overwrite actA r (ic_T c)) (-1)).
              { unfold c2. first [reflexivity | apply Z.eqb_neq in Ep; rewrite Ep; reflexivity]. }
              rewrite X. cbn [ic_piv ic_col ic_T ic_death].
              destruct U3 as [U3|[(A1 & _)|(A1 & _)]]; [|elim Ep; exact A1|elim Ep; exact A1].
              right; right. split; auto. split; [unfold pv; rewrite <- U3; auto|]. split; auto. split; [auto|].
              exists (length acc). rewrite app_length. cbn [length]. split; [lia|].
              unfold kp, fK. rewrite nth_snoc_r. cbn [k' kc_piv kc_col]. split; auto. split; [exact Hnc|]. split; [exact HzB|].
              intros i. fold n in U1b. rewrite overwrite_get by lia. unfold mem, fT. rewrite <- U3. reflexivity.
      * apply (count_alive_set ims q c2 dI); auto.
  - (* untouched *)
    apply orb_false_elim in Etr. destruct Etr as [T1 T2].
    do 3 eexists. split; [reflexivity|]. apply (kgood_snoc acc newp newp ims ims); auto.
    + constructor.
      * rewrite nth_snoc_r. split; auto.
      * rewrite nth_snoc_r, Ek. reflexivity.
      * exists (fun _ => 0). split; [intros; lia|]. intros i. unfold fK at 1. rewrite nth_snoc_r, EfK. unfold lc.
        rewrite Zsum_0 by (intros; ring). apply cong_eq; ring.
      * destruct (Hrange (length acc) Hl) as [R|R].
        -- right; left. split; auto. rewrite nth_snoc_r, Ek. reflexivity.
        -- left. unfold kp at 1 3, fK. rewrite !nth_snoc_r, Ek. rewrite <- Ekp. repeat split; auto;
             (assert (X : pA (fK ker (length acc)) (Z.to_nat (kp ker (length acc))));
             [apply Hstay; auto; intros X; assert (memi (kc_piv k) dyA = true); [|congruence]; apply memi_In;
              eexists; split; [exact X|]; rewrite Ekp in *; lia|unfold fK in X; rewrite Ek in X; apply X]).
    + intros Hpos i Hi E. destruct (kg_newp _ _ _ G i Hi) as [X|X].
      * rewrite E. auto.
      * rewrite E in X. assert (memz (kc_piv k) newp = true); [|congruence]. apply memz_In. auto.
      * rewrite E in X. apply (Hdist (length acc) i); auto; try lia.
    + apply incl_refl.
    + apply G.
    + intros j Hj. apply im_upd_snoc. apply (kg_upd _ _ _ G); auto.
Qed.

Lemma ker_phase_gen : forall todo acc newp ims, kgood acc newp ims ->
  (length acc + length todo = length ker)%nat -> (forall j, (j < length todo)%nat -> nth (length acc + j) ker dK = nth j todo dK) ->
  exists ker' newp' ims', foldM (ker_step F actA actB dyA rad p) todo (acc, newp, ims) = Ok (ker', newp', ims') /\
    length ker' = length ker /\ kgood ker' newp' ims'.
Proof.
  induction todo as [|k todo IH]; intros acc newp ims G Hl Hn.
  - exists acc, newp, ims. cbn [length] in Hl. split; [reflexivity|]. split; [lia|auto].
  - cbn [length] in Hl.
    destruct (ker_step_good acc newp ims k) as (k' & newp' & ims' & E & G'); auto.
    { lia. }
    { rewrite <- (Nat.add_0_r (length acc)). rewrite Hn by (cbn; lia). reflexivity. }
    cbn [foldM]. rewrite E. cbn [bind].
    apply (IH (acc ++ [k'])); auto.
    + rewrite app_length. cbn [length]. lia.
    + intros j Hj. rewrite app_length. cbn [length]. replace (length acc + 1 + j)%nat with (length acc + S j)%nat by lia.
      rewrite Hn by (cbn [length]; lia). reflexivity.
Qed.

Lemma ker_phase : exists ker' newp' ims', foldM (ker_step F actA actB dyA rad p) ker ([], [], ims0) = Ok (ker', newp', ims') /\
    length ker' = length ker /\ kgood ker' newp' ims'.
Proof.
  apply ker_phase_gen; auto. constructor; auto; try (cbn; intros; exfalso; lia).
  - intros j Hj. constructor; auto.
Qed.
End KerPhase.
