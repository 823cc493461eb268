(** * [assemble]: the bars of a diagonal and the extension matrix *)
From Coq Require Import QArith.
From Verif Require Import Base ListX SortX Lin Gauss_model Gauss_arith Gauss_col Gauss_bar Spec_Gauss Basis_model Basis_props PH_model IK_model IK_pivot IK_lin IK_phase IK_kphase IK_inv IK_loop IK_rel IK_rloop IK_post IK_abs IK_broken IK_brinv IK_brloop IK_brbar PH_lin Spec_PH Spec_IK Spec_Bars Spec_Ext Bars SS_model HP_model.
From Coq Require Import Znumtheory Sorting.Sorted Sorting.Permutation.
Local Open Scope Z_scope.

Lemma get_out E i k : wf_mat E -> (nrows E <= i)%nat -> get E i k = 0.
Proof.
  intros Hw Hi. unfold get. rewrite vget_out; auto. destruct (lt_dec k (ncols E)) as [H|H]; [rewrite wf_col; auto|].
  unfold col. rewrite nth_overflow; [cbn; lia|]. unfold ncols in H. unfold vec in *. lia.
Qed.

Lemma mk_broken bars E : (forall x : bar, In x bars -> fst x < snd x) -> nrows E = length bars -> ncols E = length bars ->
  mk_basis false bars None no_coords false true (Some E) = Ok (Basis bars false (length bars) None no_coords false (Some E) None).
Proof.
  intros H H1 H2. unfold mk_basis. cbn [andb mk_coords bind mk_brk].
  assert (E1 : (if Nat.eqb (length bars) 0 then bars else mask_filter (well_defined bars) bars) = bars).
  { destruct (Nat.eqb_spec (length bars) 0); auto. unfold well_defined. rewrite mask_filter_map. apply filter_id. intros x Hx. apply Z.ltb_lt. auto. }
  rewrite E1.
  replace (if Nat.eqb (length bars) 0 then 0%nat else length (filter (fun b => b) (well_defined bars))) with (length bars).
  - rewrite H1, H2, Nat.eqb_refl. reflexivity.
  - destruct (Nat.eqb_spec (length bars) 0); auto. unfold well_defined. rewrite filter_map_id, filter_id; auto. intros x Hx. apply Z.ltb_lt. auto.
Qed.

(** ** Closure *)
Lemma pres_cycle_sub p bars r : prime p -> subspace p (pres_cycle p bars r).
Proof.
  intros Hp N c W v HW Hv i Hi.
  assert (X : exists k, (k < N)%nat /\ ~ cong p (W k i) 0).
  { assert (Y : ~ cong p (Zsum N (fun k => c k * W k i)) 0).
    { intros C. apply Hi. rewrite Hv. apply (mz0 p _ Hp). auto. }
    clear -Y. induction N as [|N IH]; [elim Y; reflexivity|]. cbn [Zsum] in Y. destruct (cong_dec p (W N i) 0) as [C|C].
    - destruct IH as (k & H1 & H2); [intros D; apply Y; rewrite D, C; apply cong_eq; ring|]. exists k. split; [lia|auto].
    - exists N. split; [lia|auto]. }
  destruct X as (k & Hk & X). apply (HW k Hk). intros C. apply X. apply (mz0 p _ Hp). auto.
Qed.

Lemma pres_bounds_sub p bars E r : prime p -> subspace p (pres_bounds p bars E r).
Proof.
  intros Hp N c W v HW Hv. set (n := length bars).
  destruct (fin_choose (fun _ : nat => 0) N (fun k D => (forall l, D l mod p <> 0 -> (l < n)%nat /\ bdeath bars l <= r) /\
    forall i, W k i mod p = Zsum n (fun l => D l * ((if Nat.eqb i l then 1 else 0) - get E i l)) mod p)) as (D & HD).
  { intros k Hk. apply (HW k Hk). }
  exists (lc N c D). split.
  - intros l Hl. assert (X : exists k, (k < N)%nat /\ ~ cong p (D k l) 0).
    { assert (Y : ~ cong p (Zsum N (fun k => c k * D k l)) 0) by (intros C; apply Hl; apply (mz0 p _ Hp); auto).
      clear -Y. induction N as [|N IH]; [elim Y; reflexivity|]. cbn [Zsum] in Y. destruct (cong_dec p (D N l) 0) as [C|C].
      - destruct IH as (k & H1 & H2); [intros E; apply Y; rewrite E, C; apply cong_eq; ring|]. exists k. split; [lia|auto].
      - exists N. split; [lia|auto]. }
    destruct X as (k & Hk & X). apply (HD k Hk). intros C. apply X. apply (mz0 p _ Hp). auto.
  - intros i. rewrite Hv. apply (mod_cong p Hp). fold n.
    change (Zsum n (fun k => lc N c D k * ((if Nat.eqb i k then 1 else 0) - get E i k)))
      with (lc n (lc N c D) (fun k i => (if Nat.eqb i k then 1 else 0) - get E i k) i).
    rewrite lc_lc. unfold lc. apply Zsum_cong. intros k Hk. destruct (HD k Hk) as [_ X].
    specialize (X i). apply (mod_cong p Hp) in X. rewrite X. reflexivity.
Qed.

(** ** Renaming the generators *)
Section Relabel.
Variables (p M : Z) (bars bars' : list (Z * Z)) (E E' : mat) (o ro : list nat).
Notation n := (length bars).
Hypothesis Hp : prime p.
Hypothesis Ho : bij n o ro.
Hypothesis Hl : length bars' = n.
Hypothesis Hbars : forall t, (t < n)%nat -> nth t bars' (0, 0) = nth (nth t o 0%nat) bars (0, 0).
Hypothesis HEw : wf_mat E.
Hypothesis HEr : nrows E = n.
Hypothesis HEw' : wf_mat E'.
Hypothesis HEr' : nrows E' = n.
Hypothesis HEE : forall i k, (i < n)%nat -> (k < n)%nat -> get E' i k = get E (nth i o 0%nat) (nth k o 0%nat).

Local Lemma z0 : 0 mod p = 0.
Proof. apply Z.mod_0_l. pose proof (prime_ge_2 _ Hp). lia. Qed.

Lemma pres_relabel l : barcode p (pres_cycle p bars') (pres_bounds p bars' E') M l -> barcode p (pres_cycle p bars) (pres_bounds p bars E) M l.
Proof.
  set (fw := fun (v : nat -> Z) i => if lt_dec i n then v (nth i ro 0%nat) else 0).
  set (bk := fun (w : nat -> Z) t => if lt_dec t n then w (nth t o 0%nat) else 0).
  assert (B1 : forall t, (t < n)%nat -> (nth t o 0 < n)%nat /\ nth (nth t o 0%nat) ro 0%nat = t) by (apply (bj_2 _ _ _ Ho)).
  assert (B2 : forall i, (i < n)%nat -> (nth i ro 0 < n)%nat /\ nth (nth i ro 0%nat) o 0%nat = i) by (apply (bj_1 _ _ _ Ho)).
  assert (Hz : forall r, pres_bounds p bars E r (fun _ => 0)).
  { intros r. exists (fun _ => 0). split; [intros k Hk; elim Hk; apply z0|]. intros i. f_equal. symmetry. apply Zsum_0. intros; ring. }
  assert (Hsum : forall c i, (i < n)%nat ->
     Zsum n (fun k => c k * ((if Nat.eqb (nth i ro 0%nat) k then 1 else 0) - get E' (nth i ro 0%nat) k)) =
     Zsum n (fun k => fw c k * ((if Nat.eqb i k then 1 else 0) - get E i k))).
  { intros c i Hi. symmetry. rewrite <- (bij_sum n o ro _ Ho). apply Zsum_ext. intros t Ht. destruct (B1 t Ht) as [X Y]. destruct (B2 i Hi) as [X' Y'].
    unfold fw. destruct (lt_dec (nth t o 0%nat) n) as [_|]; [|contradiction]. rewrite Y. rewrite HEE by auto. rewrite Y'. f_equal. f_equal.
    destruct (Nat.eqb_spec (nth i ro 0%nat) t) as [e|e]; destruct (Nat.eqb_spec i (nth t o 0%nat)) as [e'|e']; auto; congruence. }
  apply (barcode_map p _ _ _ _ fw M l Hp).
  - intros r _. apply pres_cycle_sub; auto.
  - intros r _. apply pres_bounds_sub; auto.
  - intros r s v Hrs H i Hi. destruct (H i Hi). split; auto. lia.
  - intros r s v Hrs (c & C1 & C2). exists c. split; auto. intros k Hk. destruct (C1 k Hk). split; auto. lia.
  - intros N c W i. unfold fw. destruct (lt_dec i n); [reflexivity|]. rewrite Zsum_0; [reflexivity|]. intros; ring.
  - intros u v H i. unfold fw. destruct (lt_dec i n); auto. reflexivity.
  - intros r v _ H i Hi. unfold fw in Hi. destruct (lt_dec i n) as [X|X]; [|elim Hi; apply z0]. split; auto.
    destruct (H _ Hi) as [_ Y]. unfold bbirth in *. destruct (B2 i X) as [B3 B4]. rewrite Hbars in Y by auto. rewrite B4 in Y. exact Y.
  - intros r v _ (c & C1 & C2). exists (fw c). rewrite Hl in *. split.
    + intros k Hk. unfold fw in Hk. destruct (lt_dec k n) as [X|X]; [|elim Hk; apply z0]. split; auto.
      destruct (C1 _ Hk) as [_ Y]. unfold bdeath in *. destruct (B2 k X) as [B3 B4]. rewrite Hbars in Y by auto. rewrite B4 in Y. exact Y.
    + intros i. destruct (lt_dec i n) as [X|X].
      * rewrite <- Hsum by auto. rewrite <- C2. unfold fw. destruct (lt_dec i n); [reflexivity|contradiction].
      * f_equal. unfold fw at 1. destruct (lt_dec i n); [contradiction|]. symmetry. apply Zsum_0. intros k Hk.
        rewrite get_out by (auto; lia). destruct (Nat.eqb_spec i k); [lia|ring].
  - intros r v _ Hv (c & C1 & C2). exists (bk c). rewrite Hl. split.
    + intros k Hk. unfold bk in Hk. destruct (lt_dec k n) as [X|X]; [|elim Hk; apply z0]. split; auto.
      destruct (C1 _ Hk) as [_ Y]. unfold bdeath in *. rewrite Hbars; auto.
    + intros t. destruct (lt_dec t n) as [X|X].
      * destruct (B1 t X) as [B3 B4]. specialize (C2 (nth t o 0%nat)). unfold fw in C2 at 1. destruct (lt_dec (nth t o 0%nat) n); [|contradiction]. rewrite B4 in C2. rewrite C2.
        transitivity (Zsum n (fun k => fw (bk c) k * ((if Nat.eqb (nth t o 0%nat) k then 1 else 0) - get E (nth t o 0%nat) k)) mod p).
        -- f_equal. apply Zsum_ext. intros k Hk. unfold fw, bk. destruct (lt_dec k n); [|contradiction]. destruct (B2 k Hk) as [D1 D2].
           destruct (lt_dec (nth k ro 0%nat) n); [|contradiction]. rewrite D2. reflexivity.
        -- rewrite <- Hsum by auto. rewrite B4. reflexivity.
      * assert (Y : v t mod p = 0). { destruct (Z.eq_dec (v t mod p) 0) as [|C]; auto. apply Hv in C. lia. }
        rewrite Y. rewrite Zsum_0; [symmetry; apply z0|]. intros k Hk. rewrite get_out by (auto; lia). destruct (Nat.eqb_spec t k); [lia|ring].
  - intros r w _ Hw. exists (bk w). split.
    + intros t Ht. unfold bk in Ht. destruct (lt_dec t n) as [X|X]; [|elim Ht; apply z0]. rewrite Hl. split; auto.
      destruct (Hw _ Ht) as [_ Y]. unfold bbirth in *. rewrite Hbars; auto.
    + apply (pres_bounds_sub p bars E r Hp 0%nat (fun _ => 0) (fun _ _ => 0)); [intros; lia|].
      intros i. cbn [Zsum]. rewrite z0. apply (mz0 p _ Hp). unfold fw, bk. destruct (lt_dec i n) as [X|X].
      * destruct (B2 i X) as [B3 B4]. destruct (lt_dec (nth i ro 0%nat) n); [|contradiction]. rewrite B4. apply cong_eq. ring.
      * rewrite Z.sub_0_r. apply (mz0 p _ Hp). destruct (Z.eq_dec (w i mod p) 0) as [|C]; auto. apply Hw in C. lia.
Qed.
End Relabel.

(** ** The theorem *)
Lemma get_take_rows A rows i j : (i < length rows)%nat -> get (take_rows A rows) i j = get A (nth i rows 0%nat) j.
Proof.
  intros Hi. unfold get, take_rows, col. cbn [cols]. destruct (lt_dec j (length (cols A))) as [H|H].
  - set (g := fun c : vec => map (vget c) rows).
    change (vget (nth j (map g (cols A)) []) i = vget (nth j (cols A) []) (nth i rows 0%nat)).
    rewrite (nth_map g (cols A) j [] []) by auto. unfold g, vget at 1. rewrite (nth_map _ rows i 0%nat) by auto. reflexivity.
  - rewrite (nth_overflow (cols A)) by (unfold vec in *; lia). rewrite nth_overflow by (rewrite map_length; unfold vec in *; lia). unfold vget. destruct i, (nth _ rows 0%nat); reflexivity.
Qed.

Lemma sorted_births rnd bars i j : rnd_faithful rnd bars -> (i <= j)%nat -> (j < length bars)%nat ->
  fst (nth (nth i (sort_order rnd bars) 0%nat) bars (0, 0)) <= fst (nth (nth j (sort_order rnd bars) 0%nat) bars (0, 0)).
Proof.
  intros Hr Hij Hj. set (o := sort_order rnd bars). assert (Lo : length o = length bars) by apply sort_order_length.
  assert (Hin : forall t, (t < length bars)%nat -> (nth t o 0 < length bars)%nat) by (intros t Ht; apply (sort_order_lt rnd bars), nth_In; rewrite sort_order_length; lia).
  destruct (Nat.eq_dec i j) as [->|Hne]; [lia|].
  pose proof (sort_order_sorted rnd bars) as Hs.
  assert (Hij' : (i < j < length o)%nat) by lia. pose proof (sorted_nth _ _ 0%nat Hs _ _ Hij') as Hb. fold o in Hb.
  apply Hr; try (apply nth_In; apply Hin; lia). unfold bar_before in Hb. lia.
Qed.

Theorem assemble_barcode rnd p M bars E : prime p -> bars <> [] -> (forall x, In x bars -> fst x < snd x <= M) ->
  nrows E = length bars -> ncols E = length bars -> wf_mat E -> pres_valid p bars E -> two_step p bars E -> rnd_faithful rnd bars ->
  exists PH, assemble rnd p M bars E = Ok PH /\ barcode p (pres_cycle p bars) (pres_bounds p bars E) M (b_bars PH).
Proof.
  intros Hp Hne Hbar HEr HEc HEw Hval Htwo Hrnd. set (n := length bars).
  assert (Hn : (0 < n)%nat) by (unfold n; destruct bars; [contradiction|cbn; lia]).
  assert (Hlt : forall x : bar, In x bars -> fst x < snd x) by (intros x Hx; apply Hbar; auto).
  unfold assemble, plain_basis. rewrite mk_plain by auto. cbn [bind]. rewrite mk_broken by auto. cbn [bind].
  unfold b_sort. cbn [b_flat b_bars b_prev b_coords b_brk b_dim b_wd bind].
  set (o := sort_order rnd bars).
  assert (HP : Permutation (seq 0 n) o) by apply sort_order_perm.
  pose proof (argsort_bij n o HP) as Hbij. destruct (bij_perm _ _ _ Hbij) as [Hnd Hin].
  assert (Lo : length o = n) by apply Hbij. fold n.
  destruct (take_cols_shape (mident n) o) as (E1 & E2 & E3 & E4 & E5).
  { apply Forall_forall. intros c Hc. cbn [mident cols] in Hc. apply in_map_iff in Hc. destruct Hc as (k & <- & _). unfold vunit. rewrite map_length, seq_length. reflexivity. }
  { intros j Hj. apply Hin in Hj. unfold ncols, mident. cbn [cols]. rewrite map_length, seq_length. auto. }
  rewrite E1. cbn [bind].
  assert (E6 : take_rows_err (take_cols (mident n) o) o = Ok (take_rows (take_cols (mident n) o) o)).
  { unfold take_rows_err. replace (forallb _ o) with true; auto. symmetry. apply forallb_forall. intros i Hi. apply Nat.ltb_lt. rewrite E2. apply Hin. auto. }
  rewrite E6. cbn [bind].
  set (F := take_rows (take_cols (mident n) o) o). set (E' := take_cols (take_rows E o) o).
  set (B := Basis (take (0, 0) bars o) false n None no_coords true (Some E') None).
  set (A := Basis (map (fun b : Z * Z => (fst b, M)) (take (0, 0) bars o)) false n None no_coords true None None).
  assert (Lt : length (take (0, 0) bars o) = n) by (unfold take; rewrite map_length; auto).
  assert (Nt : forall t, (t < n)%nat -> nth t (take (0, 0) bars o) (0, 0) = nth (nth t o 0%nat) bars (0, 0)).
  { intros t Ht. unfold take. rewrite (nth_map _ _ _ 0%nat) by lia. reflexivity. }
  assert (Ho : forall t, (t < n)%nat -> (nth t o 0 < n)%nat) by (intros t Ht; apply Hin, nth_In; lia).
  assert (nF : ncols F = n).
  { unfold F, take_rows, take_cols, ncols. cbn [cols]. rewrite !map_length. auto. }
  assert (GE : forall i k, (i < n)%nat -> (k < n)%nat -> get E' i k = get E (nth i o 0%nat) (nth k o 0%nat)).
  { intros i k Hi Hk. unfold E', get. rewrite nth_take_cols by lia. fold (get (take_rows E o) i (nth k o 0%nat)). rewrite get_take_rows by lia. reflexivity. }
  destruct (take_cols_shape (take_rows E o) o) as (_ & W2 & W3 & W4 & _).
  { apply wf_take_rows. }
  { intros j Hj. apply Hin in Hj. unfold ncols, take_rows. cbn [cols]. rewrite map_length. unfold ncols in HEc. fold n in HEc. unfold vec in *. lia. }
  destruct (image_kernel_broken rnd p M A B F E') as (Im & Pre & EI & HI); auto; try (rewrite nF); auto.
  - apply wf_take_rows.
  - intros j i Hj. unfold fF. fold (get F i j). destruct (lt_dec i n) as [Hi|Hi].
    + unfold F. rewrite get_take_rows by lia. rewrite E5 by lia. unfold get, mident, col. cbn [cols].
      rewrite (nth_map _ _ _ 0%nat) by (rewrite seq_length; auto). rewrite seq_nth by auto. cbn [plus]. rewrite vget_vunit by auto.
      unfold funit. destruct (Nat.eqb_spec (nth i o 0%nat) (nth j o 0%nat)) as [e|e]; destruct (Nat.eqb_spec i j) as [e'|e']; auto; [|congruence].
      apply (proj1 (NoDup_nth o 0%nat)) in e; auto; try lia.
    + rewrite get_out; [|apply wf_take_rows|cbn; lia]. unfold funit. destruct (Nat.eqb_spec i j); auto. lia.
  - unfold A. cbn [b_dim b_bars]. rewrite map_length. auto.
  - intros i Hi. unfold lo, A, B. cbn [b_bars]. rewrite (nth_map _ _ _ (0, 0)) by lia. reflexivity.
  - intros i Hi. unfold hi, A. cbn [b_bars]. rewrite (nth_map _ _ _ (0, 0)) by lia. reflexivity.
  - intros i Hi. unfold lo, hi, B. cbn [b_bars]. rewrite Nt by auto. apply Hbar. apply nth_In. apply Ho. auto.
  - intros i j Hij Hj. unfold lo, B. cbn [b_bars]. rewrite !Nt by lia. apply sorted_births; auto.
  - intros i k Hi Hk Hnz. rewrite GE in Hnz by auto.
    assert (Hm : get E (nth i o 0%nat) (nth k o 0%nat) mod p <> 0) by (intros C; apply Hnz; apply (mz0 p _ Hp); auto). split.
    + unfold lo, hi, B. cbn [b_bars]. rewrite !Nt by auto. apply (Hval (nth i o 0%nat) (nth k o 0%nat)); auto; apply Ho; auto.
    + intros l Hl. rewrite GE by auto. apply (mz0 p _ Hp). apply (Htwo (nth i o 0%nat) (nth k o 0%nat)); auto; apply Ho; auto.
  - rewrite EI. cbn [bind]. exists Im. split; auto. unfold B in HI. cbn [b_bars] in HI.
    apply (pres_relabel p M bars (take (0, 0) bars o) E E' o (argsort_nat o)); auto.
Qed.

Theorem assemble_unique rnd p M bars E l : prime p -> bars <> [] -> (forall x, In x bars -> fst x < snd x <= M) ->
  nrows E = length bars -> ncols E = length bars -> wf_mat E -> pres_valid p bars E -> two_step p bars E -> rnd_faithful rnd bars ->
  barcode p (pres_cycle p bars) (pres_bounds p bars E) M l ->
  exists PH, assemble rnd p M bars E = Ok PH /\ Permutation (b_bars PH) l.
Proof.
  intros Hp H1 H2 H3 H4 H5 H6 H7 H8 Hl. destruct (assemble_barcode rnd p M bars E) as (PH & E1 & HB); auto.
  exists PH. split; auto. apply (barcode_unique p Hp (pres_cycle p bars) (pres_bounds p bars E) M); auto.
  intros r _. apply pres_bounds_sub. auto.
Qed.

(** ** Concrete matrices *)
Fixpoint upto (n : nat) (f : nat -> bool) : bool := match n with O => true | Datatypes.S n => f n && upto n f end.
Lemma upto_ok n f : upto n f = true -> forall i, (i < n)%nat -> f i = true.
Proof.
  induction n as [|n IH]; intros H i Hi; [lia|]. cbn in H. apply andb_true_iff in H. destruct H as [H1 H2].
  destruct (Nat.eq_dec i n) as [->|]; auto. apply IH; auto. lia.
Qed.

Lemma valid_check p bars E : upto (length bars) (fun i => upto (length bars) (fun k => (get E i k mod p =? 0) || (bbirth bars i <=? bdeath bars k))) = true -> pres_valid p bars E.
Proof.
  intros H i k Hi Hk Hn. pose proof (upto_ok _ _ (upto_ok _ _ H i Hi) k Hk) as X. cbv beta in X. apply orb_true_iff in X.
  rewrite Z.eqb_eq, Z.leb_le in X. tauto.
Qed.

Lemma two_check p bars E : upto (length bars) (fun i => upto (length bars) (fun k => upto (length bars) (fun l => (get E i k mod p =? 0) || (get E l i mod p =? 0)))) = true ->
  two_step p bars E.
Proof.
  intros H i k l Hi Hk Hl Hn. pose proof (upto_ok _ _ (upto_ok _ _ (upto_ok _ _ H i Hi) k Hk) l Hl) as X. cbv beta in X. apply orb_true_iff in X.
  rewrite !Z.eqb_eq in X. tauto.
Qed.

Lemma bars_check (bars : list (Z * Z)) M : forallb (fun x => (fst x <? snd x) && (snd x <=? M)) bars = true -> forall x, In x bars -> fst x < snd x <= M.
Proof. rewrite forallb_forall. intros H x Hx. apply H in Hx. apply andb_true_iff in Hx. rewrite Z.ltb_lt, Z.leb_le in Hx. lia. Qed.

Lemma wf_check E : forallb (fun c => Nat.eqb (length c) (nrows E)) (cols E) = true -> wf_mat E.
Proof. rewrite forallb_forall. intros H. apply Forall_forall. intros c Hc. apply H in Hc. apply Nat.eqb_eq. auto. Qed.

Lemma chain_aux : exists bars E PH, (forall x, In x bars -> fst x < snd x <= 10) /\
  nrows E = length bars /\ ncols E = length bars /\ wf_mat E /\ pres_valid 2 bars E /\ rnd_faithful (fun x => x) bars /\
  assemble (fun x => x) 2 10 bars E = Ok PH /\ ~ barcode 2 (pres_cycle 2 bars) (pres_bounds 2 bars E) 10 (b_bars PH).
Proof.
  exists [(2, 5); (2, 4); (0, 4)], (Mat 3 [[0;0;0];[1;0;0];[0;1;0]]).
  remember (assemble (fun x => x) 2 10 [(2, 5); (2, 4); (0, 4)] (Mat 3 [[0;0;0];[1;0;0];[0;1;0]])) as R eqn:ER.
  assert (X : match R with Ok PH => b_bars PH = [(0, 4); (2, 5); (2, 4)] | Err _ => False end) by (subst R; vm_compute; reflexivity).
  destruct R as [PH|]; [|contradiction]. exists PH. clear ER.
  split; [apply bars_check; reflexivity|]. split; [reflexivity|]. split; [reflexivity|]. split; [apply wf_check; reflexivity|].
  split; [apply valid_check; reflexivity|]. split; [intros x y _ _ H; exact H|]. split; [reflexivity|].
  rewrite X. intros [_ H]. destruct (H 0 4 ltac:(lia)) as (g & _ & G & _).
  destruct (G (fun i => if Nat.eqb i 2 then 1 else 0)) as (c & _ & (e & E1 & E2)).
  { intros i Hi. destruct (Nat.eqb i 2) eqn:Ei; [|elim Hi; reflexivity]. apply Nat.eqb_eq in Ei. subst i. cbn. split; lia. }
  pose proof (E2 0%nat) as X0. pose proof (E2 1%nat) as X1. pose proof (E2 2%nat) as X2.
  assert (Y : e 0%nat mod 2 = 0). { destruct (Z.eq_dec (e 0%nat mod 2) 0); auto. destruct (E1 0%nat) as [_ Y]; auto. cbn in Y. lia. }
  cbn in X0, X1, X2. clear -X0 X1 X2 Y.
  Z.to_euclidean_division_equations. lia.
Qed.

Lemma bars_aux : let bars := [(0, 3); (1, 3); (2, 6); (2, 5); (4, 9)] in let E := Mat 5 [[0;0;2;0;0];[0;0;1;1;0];[0;0;0;0;0];[0;0;0;0;0];[0;0;0;0;0]] in
  prime 3 /\ (forall x, In x bars -> fst x < snd x <= 9) /\ nrows E = length bars /\ ncols E = length bars /\ wf_mat E /\
  pres_valid 3 bars E /\ two_step 3 bars E /\ rnd_faithful (fun x => x) bars /\
  exists PH, assemble (fun x => x) 3 9 bars E = Ok PH /\ b_bars PH = [(0, 6); (1, 5); (2, 3); (2, 3); (4, 9)].
Proof.
  intros bars E. split; [apply prime_3|]. split; [apply bars_check; reflexivity|]. split; [reflexivity|]. split; [reflexivity|]. split; [apply wf_check; reflexivity|].
  split; [apply valid_check; reflexivity|]. split; [apply two_check; reflexivity|]. split; [intros x y _ _ H; exact H|].
  eexists. split; vm_compute; reflexivity.
Qed.

(** Two columns with the same entries, one of which still has an old pivot: the reduction goes back and forth. *)
Lemma pcr_forever fuel : forall b t t0 t1,
  pivot_check_reduce fuel [3; 4]%nat [([0; 0; 0; 1; 1], t0, 3); ([0; 0; 0; 1; 1], t1, 4)] (if b : bool then [0; 0; 0; 0; 1] else [0; 0; 0; 1; 0]) t 2 = Err OutOfFuel.
Proof.
  induction fuel as [|f IH]; intros b t t0 t1; [reflexivity|]. destruct b.
  - exact (IH false (add_arrays_mod_c (vscale 1 t1) t 2) t0 t1).
  - exact (IH true (add_arrays_mod_c (vscale 1 t0) t 2) t0 t1).
Qed.

Lemma loop_aux : exists bars E, (forall x, In x bars -> fst x < snd x <= 8) /\
  nrows E = length bars /\ ncols E = length bars /\ wf_mat E /\
  (forall i k, (i < length bars)%nat -> (k < length bars)%nat -> get E i k mod 2 <> 0 -> bbirth bars i <= bdeath bars k < bdeath bars i) /\
  rnd_faithful (fun x => x) bars /\ assemble (fun x => x) 2 8 bars E = Err OutOfFuel.
Proof.
  exists [(2,5);(1,4);(0,3);(2,8);(1,4)], (Mat 5 [[0;0;0;0;0];[1;0;0;1;0];[0;0;0;1;1];[0;0;0;0;0];[1;0;0;0;0]]).
  split; [apply bars_check; reflexivity|]. split; [reflexivity|]. split; [reflexivity|]. split; [apply wf_check; reflexivity|].
  split; [|split; [intros x y _ _ H; exact H|vm_compute; reflexivity]].
  intros i k Hi Hk Hn.
  assert (H : upto 5 (fun i => upto 5 (fun k => (get (Mat 5 [[0;0;0;0;0];[1;0;0;1;0];[0;0;0;1;1];[0;0;0;0;0];[1;0;0;0;0]]) i k mod 2 =? 0) ||
    ((bbirth [(2,5);(1,4);(0,3);(2,8);(1,4)] i <=? bdeath [(2,5);(1,4);(0,3);(2,8);(1,4)] k) && (bdeath [(2,5);(1,4);(0,3);(2,8);(1,4)] k <? bdeath [(2,5);(1,4);(0,3);(2,8);(1,4)] i)))) = true) by reflexivity.
  pose proof (upto_ok _ _ (upto_ok _ _ H i Hi) k Hk) as X. cbv beta in X. rewrite orb_true_iff, andb_true_iff, Z.eqb_eq, Z.leb_le, Z.ltb_lt in X. tauto.
Qed.

Lemma forever_aux : exists prev r t, forall fuel, pivot_check_reduce fuel [3; 4]%nat prev r t 2 = Err OutOfFuel.
Proof.
  exists [([0; 0; 0; 1; 1], [1; 0; 0; 0; 0], 3); ([0; 0; 0; 1; 1], [0; 1; 0; 0; 0], 4)], [0; 0; 0; 0; 1], [0; 0; 1; 0; 0].
  intros fuel. apply (pcr_forever fuel true).
Qed.
