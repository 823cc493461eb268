(** * [assemble]: extension matrices which only name older, longer-living bars *)
From Coq Require Import QArith.
From Verif Require Import Base ListX SortX Lin Gauss_model Gauss_arith Gauss_col Gauss_bar Spec_Gauss Basis_model Basis_props PH_model IK_model IK_pivot IK_lin IK_phase IK_kphase IK_inv IK_loop IK_rel IK_rloop IK_post IK_abs IK_broken IK_brinv IK_brloop IK_brbar IK_elder PH_lin Spec_PH Spec_IK Spec_Bars Spec_Ext Spec_Elder Bars SS_model HP_model Ext_props.
From Coq Require Import Znumtheory Sorting.Sorted Sorting.Permutation.
Local Open Scope Z_scope.

(** Such a matrix changes no bar. *)
Theorem assemble_elder rnd p M bars E : prime p -> bars <> [] -> (forall x, In x bars -> fst x < snd x <= M) ->
  nrows E = length bars -> ncols E = length bars -> wf_mat E -> elder p bars E -> rnd_faithful rnd bars ->
  (forall x y, In x bars -> In y bars -> rnd (snd x) <= rnd (snd y) -> snd x <= snd y) ->
  exists PH, assemble rnd p M bars E = Ok PH /\ Permutation (b_bars PH) bars.
Proof.
  intros Hp Hne Hbar HEr HEc HEw Held Hrnd Hrnd2. set (n := length bars).
  assert (Hn : (0 < n)%nat) by (unfold n; destruct bars; [contradiction|cbn; lia]).
  assert (Hlt : forall x : bar, In x bars -> fst x < snd x) by (intros x Hx; apply Hbar; auto).
  unfold assemble, plain_basis. rewrite mk_plain by auto. cbn [bind]. rewrite mk_broken by auto. cbn [bind].
  unfold b_sort. cbn [b_flat b_bars b_prev b_coords b_brk b_dim b_wd bind].
  set (o := sort_order rnd bars).
  assert (HP : Permutation (seq 0 n) o) by apply sort_order_perm.
  pose proof (argsort_bij n o HP) as Hbij. destruct (bij_perm _ _ _ Hbij) as [Hnd Hin].
  assert (Lo : length o = n) by apply Hbij. fold n.
  destruct (take_cols_shape (mident n) o) as (E1 & E2 & E3 & E4 & E5).
  { apply Forall_forall. intros c Hc. cbn [mident cols] in Hc. apply in_map_iff in Hc. destruct Hc as (k & <- & _). unfold vunit. rewrite map_length, seq_length. reflexivity. }
  { intros j Hj. apply Hin in Hj. unfold ncols, mident. cbn [cols]. rewrite map_length, seq_length. auto. }
  rewrite E1. cbn [bind].
  assert (E6 : take_rows_err (take_cols (mident n) o) o = Ok (take_rows (take_cols (mident n) o) o)).
  { unfold take_rows_err. replace (forallb _ o) with true; auto. symmetry. apply forallb_forall. intros i Hi. apply Nat.ltb_lt. rewrite E2. apply Hin. auto. }
  rewrite E6. cbn [bind].
  set (F := take_rows (take_cols (mident n) o) o). set (E' := take_cols (take_rows E o) o).
  set (B := Basis (take (0, 0) bars o) false n None no_coords true (Some E') None).
  set (A := Basis (map (fun b : Z * Z => (fst b, M)) (take (0, 0) bars o)) false n None no_coords true None None).
  assert (Lt : length (take (0, 0) bars o) = n) by (unfold take; rewrite map_length; auto).
  assert (Nt : forall t, (t < n)%nat -> nth t (take (0, 0) bars o) (0, 0) = nth (nth t o 0%nat) bars (0, 0)).
  { intros t Ht. unfold take. rewrite (nth_map _ _ _ 0%nat) by lia. reflexivity. }
  assert (Ho : forall t, (t < n)%nat -> (nth t o 0 < n)%nat) by (intros t Ht; apply Hin, nth_In; lia).
  assert (nF : ncols F = n).
  { unfold F, take_rows, take_cols, ncols. cbn [cols]. rewrite !map_length. auto. }
  assert (GE : forall i k, (i < n)%nat -> (k < n)%nat -> get E' i k = get E (nth i o 0%nat) (nth k o 0%nat)).
  { intros i k Hi Hk. unfold E', get. rewrite nth_take_cols by lia. fold (get (take_rows E o) i (nth k o 0%nat)). rewrite get_take_rows by lia. reflexivity. }
  destruct (take_cols_shape (take_rows E o) o) as (_ & W2 & W3 & W4 & _).
  { apply wf_take_rows. }
  { intros j Hj. apply Hin in Hj. unfold ncols, take_rows. cbn [cols]. rewrite map_length. unfold ncols in HEc. fold n in HEc. unfold vec in *. lia. }
  destruct (image_kernel_elder rnd p M A B F E') as (Im & Pre & EI & HI); auto; try (rewrite nF); auto.
  - apply wf_take_rows.
  - intros j i Hj. unfold fF. fold (get F i j). destruct (lt_dec i n) as [Hi|Hi].
    + unfold F. rewrite get_take_rows by lia. rewrite E5 by lia. unfold get, mident, col. cbn [cols].
      rewrite (nth_map _ _ _ 0%nat) by (rewrite seq_length; auto). rewrite seq_nth by auto. cbn [plus]. rewrite vget_vunit by auto.
      unfold funit. destruct (Nat.eqb_spec (nth i o 0%nat) (nth j o 0%nat)) as [e|e]; destruct (Nat.eqb_spec i j) as [e'|e']; auto; [|congruence].
      apply (proj1 (NoDup_nth o 0%nat)) in e; auto; try lia.
    + rewrite get_out; [|apply wf_take_rows|cbn; lia]. unfold funit. destruct (Nat.eqb_spec i j); auto. lia.
  - unfold A. cbn [b_dim b_bars]. rewrite map_length. auto.
  - intros i Hi. unfold lo, A, B. cbn [b_bars]. rewrite (nth_map _ _ _ (0, 0)) by lia. reflexivity.
  - intros i Hi. unfold hi, A. cbn [b_bars]. rewrite (nth_map _ _ _ (0, 0)) by lia. reflexivity.
  - intros i Hi. unfold lo, hi, B. cbn [b_bars]. rewrite Nt by auto. apply Hbar. apply nth_In. apply Ho. auto.
  - intros i j Hij Hj. unfold lo, B. cbn [b_bars]. rewrite !Nt by lia. apply sorted_births; auto.
  - intros i k Hi Hk Hnz. rewrite GE in Hnz by auto.
    assert (Hm : get E (nth i o 0%nat) (nth k o 0%nat) mod p <> 0) by (intros C; apply Hnz; apply (mz0 p _ Hp); auto).
    destruct (Held _ _ (Ho i Hi) (Ho k Hk) Hm) as [X Y]. unfold bbirth, bdeath in X, Y.
    destruct (lt_eq_lt_dec i k) as [[L|L]|L]; [exact L|subst k; lia|exfalso].
    pose proof (sorted_nth _ _ 0%nat (sort_order_sorted rnd bars) k i) as Hb. rewrite sort_order_length in Hb. fold n o in Hb. specialize (Hb ltac:(lia)). unfold bar_before in Hb.
    assert (I1 : In (nth (nth i o 0%nat) bars (0, 0)) bars) by (apply nth_In; apply Ho; auto).
    assert (I2 : In (nth (nth k o 0%nat) bars (0, 0)) bars) by (apply nth_In; apply Ho; auto).
    destruct Hb as [Hb|[[Hb1 Hb2]|(Hb1 & Hb2 & _)]].
    + pose proof (Hrnd _ _ I2 I1 ltac:(lia)). assert (Eq : fst (nth (nth i o 0%nat) bars (0, 0)) = fst (nth (nth k o 0%nat) bars (0, 0))) by lia. rewrite Eq in Hb. lia.
    + pose proof (Hrnd2 _ _ I1 I2 ltac:(lia)). lia.
    + pose proof (Hrnd2 _ _ I1 I2 ltac:(lia)). lia.
  - rewrite EI. cbn [bind]. exists Im. split; auto. unfold B in HI. cbn [b_bars] in HI.
    etransitivity; [exact HI|]. unfold take. transitivity (map (fun i => nth i bars (0, 0)) (seq 0 n)); [apply Permutation_map, Permutation_sym; auto|].
    replace (map (fun i => nth i bars (0, 0)) (seq 0 n)) with bars; [apply Permutation_refl|].
    apply (nth_ext _ _ (0, 0) (0, 0)); [rewrite map_length, seq_length; auto|]. intros j Hj.
    rewrite (nth_map _ _ _ 0%nat) by (rewrite seq_length; auto). rewrite seq_nth by auto. reflexivity.
Qed.

Lemma elder_chain : let bars := [(2, 3); (1, 5); (0, 9)] in let E := Mat 3 [[0;1;1];[0;0;1];[0;0;0]] in
  prime 2 /\ bars <> [] /\ (forall x, In x bars -> fst x < snd x <= 9) /\ nrows E = length bars /\ ncols E = length bars /\ wf_mat E /\ elder 2 bars E /\
  rnd_faithful (fun x => x) bars /\ ~ two_step 2 bars E /\ exists PH, assemble (fun x => x) 2 9 bars E = Ok PH /\ b_bars PH = [(0, 9); (1, 5); (2, 3)].
Proof.
  cbv zeta. split; [exact prime_2|]. split; [discriminate|]. split; [intros x Hx; cbn [In] in Hx; destruct Hx as [<-|[<-|[<-|[]]]]; cbn; lia|].
  split; [reflexivity|]. split; [reflexivity|]. split; [repeat constructor|].
  split; [intros i k Hi Hk; cbn [length] in Hi, Hk; destruct i as [|[|[|?]]]; destruct k as [|[|[|?]]]; try lia; vm_compute; intros H; try (exfalso; apply H; reflexivity); split; first [reflexivity|discriminate]|].
  split; [intros x y _ _ H; exact H|]. split; [intros H; specialize (H 1%nat 0%nat 2%nat); cbn [length] in H; assert (X := H ltac:(lia) ltac:(lia) ltac:(lia) ltac:(vm_compute; discriminate)); vm_compute in X; discriminate|].
  eexists. split; vm_compute; reflexivity.
Qed.
