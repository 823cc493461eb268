(** * [image_kernel] with a broken codomain: the barcode of the image *)
From Verif Require Import Base ListX SortX Lin Gauss_model Gauss_arith Gauss_col Gauss_bar Spec_Gauss Basis_model Basis_props PH_model IK_model IK_pivot IK_lin IK_phase IK_kphase IK_inv IK_loop IK_rel IK_rloop IK_post IK_abs IK_broken IK_brinv IK_brloop PH_lin Spec_PH Spec_Bars Spec_Ext Bars.
From Coq Require Import Znumtheory Sorting.Sorted Sorting.Permutation.
Local Open Scope Z_scope.

Lemma mz0 p x : prime p -> (x mod p = 0 <-> cong p x 0).
Proof. intros Hp. pose proof (prime_ge_2 _ Hp). assert (X : p <> 0) by lia. rewrite (cong_iff_mod p x 0 X). rewrite Z.mod_0_l by lia. reflexivity. Qed.

(** Leaving out the empty intervals, and reordering, changes no count. *)
Lemma sel_counts bars l r s : sel bars l -> r <= s ->
  count_bars (spans r s) (map (fun k => nth k bars (0, 0)) l) = count_bars (spans r s) bars.
Proof.
  intros [H1 H2] Hrs. rewrite <- (sel_count bars r s). unfold count_bars.
  assert (E : length (filter (spans r s) (map (fun k => nth k bars (0, 0)) l)) = length (filter (fun k => spans r s (nth k bars (0, 0))) l)).
  { clear. induction l as [|a l IH]; cbn; auto. destruct (spans r s (nth a bars (0, 0))); cbn; rewrite IH; auto. }
  rewrite E. apply Permutation_length. apply NoDup_Permutation; try (apply NoDup_filter; auto; apply seq_NoDup).
  intros k. rewrite !filter_In, H2, in_seq. unfold spans. rewrite andb_true_iff, Z.leb_le, Z.ltb_lt.
  split; intros H; repeat split; try tauto; try lia.
Qed.

Section BBar.
Variables (rnd : Z -> Z) (p M : Z) (A B : basis) (F E : mat).
Notation n := (ncols F).
Notation b := (lo B).
Notation d := (hi B).
Notation al := (alive n b d).
Hypothesis Hp : prime p.
Hypothesis HF : wf_mat F.
Hypothesis Hsq : nrows F = n.
Hypothesis HF1 : forall j i, (j < n)%nat -> fF F j i = funit j i.
Hypothesis HA : b_flat A = false.
Hypothesis HB : b_flat B = false.
Hypothesis HAd : b_dim A = length (b_bars A).
Hypothesis HBd : b_dim B = length (b_bars B).
Hypothesis HAn : b_dim A = n.
Hypothesis HBn : b_dim B = n.
Hypothesis Hbrk : b_brk B = Some E.
Hypothesis HEr : nrows E = n.
Hypothesis HEw : wf_mat E.
Hypothesis Hb : forall i, (i < n)%nat -> lo A i = b i.
Hypothesis HdA : forall i, (i < n)%nat -> hi A i = M.
Hypothesis Hbar : forall i, (i < n)%nat -> b i < d i <= M.
Hypothesis Hsort : forall i j, (i <= j)%nat -> (j < n)%nat -> b i <= b j.
Hypothesis HE : forall i k, (i < n)%nat -> (k < n)%nat -> ~ cong p (get E i k) 0 -> b i <= d k /\ forall l, (l < n)%nat -> cong p (get E l i) 0.
Hypothesis Hn : (0 < n)%nat.

Notation Zp := (pres_cycle p (b_bars B)).
Notation Bp := (pres_bounds p (b_bars B) E).

Lemma rel_bounds r u : rel p B F E r u -> Bp r u.
Proof.
  intros (c & H1 & H2). exists (fun k => if cong_dec p (c k) 0 then 0 else if lt_dec k n then c k else 0). rewrite <- HBd, HBn. split.
  - intros k Hk. destruct (cong_dec p (c k) 0) as [|X]; [elim Hk; apply Z.mod_0_l; pose proof (prime_ge_2 _ Hp); lia|].
    destruct (lt_dec k n) as [Y|Y]; [|elim Hk; apply Z.mod_0_l; pose proof (prime_ge_2 _ Hp); lia]. split; auto.
    destruct (Z_le_gt_dec (bdeath (b_bars B) k) r) as [|G]; auto. elim X. apply H1; auto. unfold bdeath, hi in *. lia.
  - intros i. apply (mod_cong p Hp). rewrite (H2 i). unfold lc. apply Zsum_cong. intros k Hk. unfold REL, funit.
    destruct (lt_dec k n) as [_|]; [|contradiction]. destruct (cong_dec p (c k) 0) as [X|X]; [rewrite X; apply cong_eq; ring|reflexivity].
Qed.
Lemma bounds_rel r u : Bp r u -> rel p B F E r u.
Proof.
  intros (c & H1 & H2). rewrite <- HBd, HBn in *. exists c. split.
  - intros k Hk Hr. destruct (cong_dec p (c k) 0) as [|X]; auto. destruct (H1 k) as [_ Y]; [|unfold bdeath, hi in *; lia].
    intros C. apply X. apply (mz0 p _ Hp) in C; auto.
  - intros i. apply (mod_cong p Hp). rewrite H2. reflexivity.
Qed.

Lemma br_barcode ims : bresult p M B F E ims ->
  forall r s, r <= s < M -> exists g, quotient_basis p (Zp r) (Bp s)
    (count_bars (spans r s) (map (fun c => (ic_birth c, ic_death c)) ims)) g (fun _ => True).
Proof.
  intros R r s Hrs. destruct (br_q _ _ _ _ _ _ R s) as (T & T1 & T2 & T3).
  set (bars := map (fun c => (ic_birth c, ic_death c)) ims).
  assert (Lb : length bars = n) by (unfold bars; rewrite map_length; apply R).
  assert (Nb : forall j, (j < n)%nat -> nth j bars (0, 0) = (b j, ic_death (nth j ims dI))).
  { intros j Hj. unfold bars. rewrite (nth_map _ _ _ dI) by (rewrite (br_len _ _ _ _ _ _ R); auto). rewrite (br_birth _ _ _ _ _ _ R j Hj). reflexivity. }
  assert (SB : subspace p (Bp s)).
  { intros N c W v HW Hv. apply rel_bounds. apply (rel_cong p B F E s (lc N c W)).
    - intros i. symmetry. apply (mod_cong p Hp). apply Hv.
    - apply rel_lc. intros k Hk. right. apply bounds_rel. auto. }
  (* the columns born by [r] are the first [k] *)
  assert (Hcut : exists k, (k <= n)%nat /\ forall j, (j < n)%nat -> ((j < k)%nat <-> b j <= r)).
  { clear -Hsort. assert (X : forall m, (m <= n)%nat -> exists k, (k <= m)%nat /\ forall j, (j < m)%nat -> ((j < k)%nat <-> b j <= r)).
    { induction m as [|m IH]; intros Hm; [exists 0%nat; split; [lia|intros; lia]|]. destruct IH as (k & K1 & K2); [lia|].
      destruct (Z_le_gt_dec (b m) r) as [Y|Y].
      - exists (Datatypes.S m). split; [lia|]. intros j Hj. split; [|lia]. intros _. specialize (Hsort j m ltac:(lia) ltac:(lia)). lia.
      - exists k. split; [lia|]. intros j Hj. destruct (Nat.eq_dec j m) as [->|]; [lia|apply K2; lia]. }
    apply X. auto. }
  destruct Hcut as (k0 & K1 & K2).
  exists (fun t => T (nth t (filter (fun k => spans r s (nth k bars (0, 0))) (seq 0 n)) 0%nat)).
  rewrite <- sel_count, Lb. apply (quotient_select p (Zp r) (Bp s) n T); auto.
  - intros k Hk Hf. rewrite Nb in Hf by auto. unfold spans in Hf. cbn [fst snd] in Hf. rewrite andb_true_iff, Z.leb_le, Z.ltb_lt in Hf.
    intros i Hi. assert (X : ~ cong p (T k i) 0) by (intros C; apply Hi; apply (mz0 p _ Hp); auto).
    destruct (T1 k Hk) as [Y _]. apply Y in X. rewrite <- HBd, HBn. split; [lia|]. specialize (Hsort i k X Hk). unfold bbirth. unfold lo in *. lia.
  - intros v Hv.
    assert (Hv' : forall i, ~ cong p (v i) 0 -> (i < k0)%nat).
    { intros i Hi. destruct (Hv i) as [X Y]; [intros C; apply Hi; apply (mz0 p _ Hp); auto|]. rewrite <- HBd, HBn in X. apply K2; auto. }
    destruct (tri_solve p T Hp k0) with (x := v) as (w & W1 & W2 & _); auto; [intros j Hj; apply T1; lia|].
    exists w. apply rel_bounds.
    apply (rel_cong p B F E s (lc k0 (fun j => if spans r s (nth j bars (0, 0)) then 0 else w j) T)).
    + intros i. rewrite (W2 i). unfold lc.
      replace n with (k0 + (n - k0))%nat by lia. rewrite Zsum_app.
      rewrite (Zsum_cong0 p (n - k0)).
      2:{ intros t Ht. destruct (spans r s _); [|reflexivity]. destruct (cong_dec p (w (k0 + t)%nat) 0) as [C|C]; [rewrite C; apply cong_eq; ring|]. apply W1 in C. lia. }
      rewrite Z.add_0_r. rewrite <- Zsum_sub. apply cong_eq. apply Zsum_ext. intros t Ht. destruct (spans r s _); ring.
    + apply rel_lc. intros j Hj. destruct (spans r s (nth j bars (0, 0))) eqn:Es; [left; reflexivity|right].
      apply T2; [lia| |]; [assert (b j <= r) by (apply K2; lia); lia|].
      unfold spans in Es. rewrite Nb in Es by lia. cbn [fst snd] in Es. unfold okf. assert (b j <= r) by (apply K2; lia).
      destruct (Z.leb_spec (b j) r); [|lia]. cbn [andb] in Es. rewrite Es. apply andb_false_r.
  - intros c Hc k Hk Hf. apply (mz0 p _ Hp).
    assert (X : cong p ((fun j => if spans r s (nth j bars (0, 0)) then c j else 0) k) 0); [apply (T3 (fun j => if spans r s (nth j bars (0, 0)) then c j else 0)); auto|cbv beta in X; rewrite Hf in X; exact X].
    + intros j Hj Hnz. destruct (spans r s (nth j bars (0, 0))) eqn:Es; [|elim Hnz; reflexivity]. rewrite Nb in Es by auto. unfold spans in Es. cbn [fst snd] in Es.
      rewrite andb_true_iff, Z.leb_le, Z.ltb_lt in Es. unfold okf. rewrite andb_true_iff, Z.leb_le, Z.ltb_lt. lia.
    + apply bounds_rel in Hc. apply (rel_cong p B F E s) with (2 := Hc). intros i. apply cong_eq. unfold lc. apply Zsum_ext. intros j Hj.
      cbv beta; destruct (spans r s (nth j bars (0, 0))); ring.
Qed.

Hypothesis HAs : b_sorted A = true.
Hypothesis HBs : b_sorted B = true.

Theorem image_kernel_broken : exists Im Pre, image_kernel rnd A B F p 0 = Ok (Im, None, Pre) /\
  barcode p Zp Bp M (b_bars Im).
Proof.
  destruct (br_loop_result p M A B F E) as (ims & EL & R); auto.
  assert (Lims : length ims = n) by apply R.
  unfold image_kernel, order_B, order_A. rewrite HBn, HAn, Hsq, !Nat.eqb_refl. cbn [negb orb]. rewrite HBs. cbn [bind]. rewrite HAs. cbn [bind].
  rewrite HAn, HBn. fold (ims0 A F).
  change (zunique (changes_list A ++ changes_list B)) with (radii A B).
  rewrite EL. cbn [bind].
  assert (EF : finish_ims (radii A B) ims = Ok ims) by (apply all_piv_finish_ims; rewrite Lims; apply R).
  rewrite EF. cbn [bind]. rewrite Hbrk. cbn [orb bind]. 
  set (CI := Mat n (map ic_col ims)).
  rewrite (take_rows_err_bij CI n (seq 0 n) (seq 0 n) eq_refl (bij_id n)). cbn [bind skipn].
  set (ibars := map (fun c => (ic_birth c, ic_death c)) ims).
  replace (Mat (nrows (take_rows CI (seq 0 n))) (cols (take_rows CI (seq 0 n)))) with (take_rows CI (seq 0 n)) by reflexivity.
  destruct (post_spec rnd ibars B (take_rows CI (seq 0 n)) true) as (ib & Im & oI & lI & P1 & P2 & P3 & SI & P5 & P6 & P7 & P8 & P9 & P10 & P11 & P12 & P13 & P14).
  { unfold ibars, ncols, take_rows, CI. cbn [cols]. rewrite !map_length. auto. }
  { cbn [nrows take_rows]. rewrite seq_length. auto. }
  { apply wf_take_rows. }
  { intros _ E1. apply (f_equal (@length _)) in E1. unfold ibars in E1. rewrite map_length in E1. cbn in E1. lia. }
  rewrite P1. cbn [bind].
  match goal with |- context [take_rows_err ?m (seq 0 n)] => set (CT := m) end.
  rewrite (take_rows_err_bij CT n (seq 0 n) (seq 0 n)); [|cbn; lia|apply bij_id]. cbn [bind]. rewrite P2, P3. cbn [bind].
  destruct (P14 _ (cols (take_rows CT (seq 0 n))) []) as [Q1 Q2].
  { unfold take_rows, CT, ibars. cbn [cols]. rewrite !map_length. lia. }
  rewrite take_cols_err_ok by (intros j Hj; unfold ncols; cbn [cols]; apply Nat.lt_le_trans with (1 := P5 j Hj); apply Nat.eq_le_incl; symmetry; exact Q1). cbn [bind].
  eexists Im, _. split; [reflexivity|]. split.
  - intros x Hx. rewrite P7 in Hx. apply in_map_iff in Hx. destruct Hx as (k & <- & Hk). apply SI in Hk. destruct Hk as [Hk1 Hk2]. split; auto.
      unfold ibars in *. rewrite map_length in Hk1. rewrite (nth_map _ _ _ dI) by auto. cbn [snd]. apply R. lia.
  - intros r s Hrs. rewrite P7, (sel_counts ibars lI r s SI) by lia. apply br_barcode; auto.
Qed.
End BBar.
