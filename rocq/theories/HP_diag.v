(** * The diagonals of a spectral sequence with two columns *)
From Coq Require Import QArith.
From Verif Require Import Base ListX SortX Lin Gauss_model Gauss_arith Gauss_col Gauss_solve Gauss_bar Basis_model Basis_props PH_model PH_loop PH_lin PH_step PH_props Simp_model Spec_Simp Simp_lists Simp_diff Simp_props
  Spec_PH Spec_Rips Rips_bd Rips_chain Rips_props LC_model Spec_LC LC_props SS_model Spec_SS SS_inv SS_page SS_cech SS_glue SS_e2 SS_lift SS_zig SS_first SS_double SS_fplift
  IK_model IK_lin IK_abs IK_quot IK_mph MPH_props Spec_IK Spec_Bars Bars MPH_bars Bars_complex Spec_MV Spec_E2 Spec_Two Spec_Ext Ext_props Blocks SS_rows Cover_model HP_model HP_table HP_row HP_gens HP_second HP_zero HP_pages HP_perm HP_two Two_col Two_fam HP_ext.
From Coq Require Import Sorted Permutation Znumtheory.
Local Open Scope Z_scope.

(** ** Writing a block *)
Lemma enum_nth {A B} (f : nat * A -> B) l j (x : A) (y : B) : (j < length l)%nat -> nth j (map f (enum l)) y = f (j, nth j l x).
Proof.
  intros Hj. assert (Le : length (enum l) = length l) by (unfold enum; rewrite combine_length, seq_length; lia).
  rewrite (nth_map f (enum l) j (0%nat, x)) by lia. f_equal. unfold enum. rewrite combine_nth by (rewrite seq_length; reflexivity). rewrite seq_nth by auto. reflexivity.
Qed.
Lemma enum_length {A} (l : list A) : length (enum l) = length l.
Proof. unfold enum. rewrite combine_length, seq_length. lia. Qed.

Lemma set_block_get A r0 r1 c0 c1 blk A' : wf_mat A -> set_block A r0 r1 c0 c1 blk = Ok A' ->
  nrows A' = nrows A /\ ncols A' = ncols A /\ wf_mat A' /\
  forall i j, (i < nrows A)%nat -> (j < ncols A)%nat -> get A' i j = if (Nat.leb r0 i && Nat.ltb i r1) && (Nat.leb c0 j && Nat.ltb j c1) then get blk (i - r0) (j - c0) else get A i j.
Proof.
  intros WA E. unfold set_block in E. destruct (_ && _); [|discriminate]. injection E as <-. cbn [nrows]. split; [reflexivity|].
  split; [unfold ncols; cbn [cols]; rewrite map_length, enum_length; reflexivity|].
  assert (LC : forall j, (j < ncols A)%nat -> length (nth j (cols A) []) = nrows A) by (intros j Hj; unfold wf_mat in WA; rewrite Forall_forall in WA; apply WA; apply nth_In; exact Hj).
  assert (NC : forall j, (j < ncols A)%nat -> nth j (map (fun jc : nat * vec => let '(j, c) := jc in
      if Nat.leb c0 j && Nat.ltb j c1 then
        map (fun ix : nat * Z => let '(i, x) := ix in if Nat.leb r0 i && Nat.ltb i r1 then get blk (i - r0) (j - c0) else x) (enum c)
      else c) (enum (cols A))) [] = (if Nat.leb c0 j && Nat.ltb j c1 then
        map (fun ix : nat * Z => let '(i, x) := ix in if Nat.leb r0 i && Nat.ltb i r1 then get blk (i - r0) (j - c0) else x) (enum (nth j (cols A) []))
      else nth j (cols A) [])).
  { intros j Hj. rewrite (enum_nth _ (cols A) j []) by exact Hj. reflexivity. }
  split.
  - unfold wf_mat. cbn [cols nrows]. apply Forall_forall. intros c Hc. apply (In_nth _ _ []) in Hc. destruct Hc as (j & Hj & <-). rewrite map_length, enum_length in Hj. unfold vec in *. rewrite NC by exact Hj.
    destruct (_ && _); [rewrite map_length, enum_length|]; apply LC; exact Hj.
  - intros i j Hi Hj. unfold get, col. cbn [cols]. unfold vec in *. rewrite NC by exact Hj. destruct (Nat.leb c0 j && Nat.ltb j c1); [|rewrite andb_false_r; reflexivity]. rewrite andb_true_r.
    unfold vget. rewrite (enum_nth _ (nth j (cols A) []) i 0) by (rewrite LC by exact Hj; exact Hi). reflexivity.
Qed.

Lemma mzero_get a b i j : get (mzero a b) i j = 0.
Proof.
  unfold get, col, mzero. cbn [cols]. destruct (nth_in_or_default j (repeat (vzero a) b) []) as [X|X].
  - apply repeat_spec in X. unfold vec in *. rewrite X. unfold vget, vzero. destruct (Nat.lt_ge_cases i a); [apply nth_repeat|apply nth_overflow; rewrite repeat_length; auto].
  - unfold vec in *. rewrite X. unfold vget. destruct i; reflexivity.
Qed.
Lemma mzero_ncols a b : ncols (mzero a b) = b.
Proof. unfold ncols, mzero. cbn [cols]. apply repeat_length. Qed.
Lemma mzero_wf a b : wf_mat (mzero a b).
Proof. unfold wf_mat, mzero. cbn [cols nrows]. apply Forall_forall. intros c Hc. apply repeat_spec in Hc. rewrite Hc. apply repeat_length. Qed.

(** ** The births of a persistent basis *)
Lemma birth_step {X} p (Zs Bs : Z -> (X -> Z) -> Prop) M bars g k : prime p -> (forall r, Spec_Bars.subspace p (Bs r)) -> persistent_basis p Zs Bs M bars g -> (k < length bars)%nat ->
  (forall v, Zs (bbirth bars k) v -> Zs (bbirth bars k - 1) v) -> (forall v, Bs (bbirth bars k - 1) v -> Bs (bbirth bars k) v) -> False.
Proof.
  intros Hp HS PB Hk HZ HB. pose proof (pb_bar p M _ _ _ _ PB k Hk) as Bk. destruct PB as (_ & HQ & HD). set (b := bbirth bars k) in *.
  destruct (HQ (b - 1) ltac:(lia)) as (_ & Q2 & _). destruct (HQ b ltac:(lia)) as (Q1' & _ & Q3').
  destruct (Q2 (g k)) as (c & Hc & Hb); [apply HZ; apply Q1'; auto; fold b; lia|]. apply HB in Hb.
  set (c' := fun j => if bdeath bars j <=? b then 0 else c j). set (c2 := fun j => if bdeath bars j <=? b then c j else 0).
  set (e := fun j => (if Nat.eqb j k then 1 else 0) - c' j).
  assert (F : Bs b (fun i => Zsum (length bars) (fun j => c2 j * g j i))).
  { apply (sub_lc p); [apply HS|]. intros j Hj. unfold c2. destruct (Z.leb_spec (bdeath bars j) b) as [L|L]; [right; apply HD; auto; lia|left; reflexivity]. }
  assert (K : e k mod p = 0).
  { apply (Q3' e); [| |exact Hk].
    - intros j Hj. unfold e, c'. destruct (Nat.eqb_spec j k) as [->|_]; [fold b in Hj; lia|]. destruct (Z.leb_spec (bdeath bars j) b) as [L|L]; [reflexivity|]. rewrite Hc; [reflexivity|]. lia.
    - refine (sub_ext p _ _ _ (HS b) _ (sub_add p _ _ _ (HS b) Hb F)). intros i. cbv beta.
      rewrite (Zsum_ext _ (fun j => e j * g j i) (fun j => (if Nat.eqb j k then g j i else 0) - (c j * g j i - c2 j * g j i))).
      2:{ intros j Hj. unfold e, c', c2. destruct (Nat.eqb j k), (bdeath bars j <=? b); ring. }
      rewrite Zsum_sub, Zsum_sub. rewrite (Zsum_single _ k (fun j => if Nat.eqb j k then g j i else 0)); [rewrite Nat.eqb_refl; ring|exact Hk|]. intros j Hj Hne. apply Nat.eqb_neq in Hne. rewrite Hne. reflexivity. }
  unfold e, c' in K. rewrite Nat.eqb_refl in K. rewrite (Hc k) in K by (fold b; lia). destruct Hp as [Hp1 _].
  destruct (bdeath bars k <=? b); rewrite Z.sub_0_r, Z.mod_1_l in K by lia; discriminate.
Qed.

Lemma value_dec Dist max_r x : filtration_value Dist max_r x \/ ~ filtration_value Dist max_r x.
Proof.
  destruct (Z.eq_dec x 0) as [E|E]; [left; left; exact E|]. destruct (Z.eq_dec x max_r) as [E'|E']; [left; right; left; exact E'|].
  destruct (existsb (fun v => existsb (fun u => x =? dist Dist u v) (seq 0 v)) (seq 0 (length Dist))) eqn:EX.
  - left. right. right. apply existsb_exists in EX. destruct EX as (v & Hv & EX). apply existsb_exists in EX. destruct EX as (u & Hu & EX). apply in_seq in Hv, Hu. apply Z.eqb_eq in EX. exists u, v. split; [lia|exact EX].
  - right. intros [H|[H|(u & v & Huv & H)]]; [contradiction|contradiction|].
    assert (Y : existsb (fun v => existsb (fun u => x =? dist Dist u v) (seq 0 v)) (seq 0 (length Dist)) = true); [|congruence].
    apply existsb_exists. exists v. split; [apply in_seq; lia|]. apply existsb_exists. exists u. split; [apply in_seq; lia|apply Z.eqb_eq; exact H].
Qed.

Lemma rips_gap Dist max_r d r s : ~ filtration_value Dist max_r r -> rips Dist d r s -> rips Dist d (r - 1) s.
Proof.
  intros Hn ((H1 & H2 & H3 & H4) & H5). split; [|destruct (Z.eq_dec r 0) as [E|E]; [elim Hn; left; exact E|lia]]. split; [exact H1|]. split; [exact H2|]. split; [exact H3|].
  intros u v Hu Hv Huv. specialize (H4 u v Hu Hv Huv). cbv beta in H4. destruct (Z.eq_dec (dist Dist u v) r) as [E|E]; [|lia]. elim Hn. right. right. exists u, v. split; [split; auto|auto].
Qed.

Section Diag.
Variables (argsort : list Z -> list nat) (rnd : Z -> Z) (Dist : list (list Z)) (max_r max_dim p : Z)
  (IN : list (list (list nat))) (n0 : nat) (nerve : list (list simplex)).
Hypothesis HI : mv_input argsort Dist max_r max_dim p IN n0 nerve.
Hypothesis HN : pure_nerve n0 nerve.
Hypothesis Hrnd : forall x y, filtration_value Dist max_r x -> filtration_value Dist max_r y -> rnd x <= rnd y -> x <= y.
Hypothesis Hlen : (1 < length nerve)%nat.
Hypothesis Htop : forall n, (2 <= n)%nat -> level n0 nerve n = [].
Variable S : ss.
Hypothesis PO : page_ok argsort rnd Dist max_r max_dim p IN n0 nerve S.
Variable P : pages.
Hypothesis TA : tables rnd Dist max_r max_dim p IN n0 nerve S P.
Local Notation np := (Z.to_nat (Z.min (max_dim + 2) (Z.of_nat (length nerve)))).
Let Hnp : (2 <= np)%nat := np_ge _ _ _ _ _ _ _ _ _ HI Hrnd Hlen Htop.
Let m := Z.to_nat max_dim.
Let Hp := mv_prime _ _ _ _ _ _ _ _ HI.
Let lev n := level n0 nerve n.
Let p_pos : 0 < p. Proof. destruct Hp. lia. Qed.
Let iff0 a : a mod p = 0 <-> cong p a 0. Proof. apply mod_cong_0. exact p_pos. Qed.
Local Notation FB := (fam_bounds p Dist IN n0 nerve S).
Local Notation FZ := (fam_cycle p Dist IN n0 nerve S).
Local Notation PZ := (page2_cycle p Dist IN n0 nerve S).
Local Notation PB := (page2_bounds p Dist IN n0 nerve S).
Local Notation rb := (row_bars n0 nerve S).
Local Notation cmb := (fam_comb n0 nerve S).
Local Notation FC := (Two_fam.FC Dist p IN n0 nerve S).
Local Notation dD := (Two_fam.dD IN n0 nerve S).
Local Notation ch e := (fam_cech IN n0 nerve S e 0).
Let Hr d : (d < m)%nat -> forall x y, local_end n0 nerve S d x -> local_end n0 nerve S d y -> rnd x <= rnd y -> x <= y.
Proof. intros Hd x y Hx Hy. apply Hrnd; apply (end_value _ _ _ _ _ _ _ _ _ HI S PO d); auto. Qed.

(** Classes of the second page are born at radii of the filtration. *)
Lemma birth_value d n bars g k : (d < m)%nat -> persistent_basis p (PZ d n) (PB d n) max_r bars g -> (k < length bars)%nat -> filtration_value Dist max_r (bbirth bars k).
Proof.
  intros Hd HPB Hk. destruct (value_dec Dist max_r (bbirth bars k)) as [|Hn]; [auto|]. exfalso.
  assert (Lc : forall e n k' v, local_chain p Dist IN S n e k' (bbirth bars k) v -> local_chain p Dist IN S n e k' (bbirth bars k - 1) v).
  { intros e n' k' v H j Hj. destruct (H j Hj) as [H1 H2]. split; [exact H1|]. eapply rips_gap; eauto. }
  assert (Lb : forall e n v, FB e n (bbirth bars k) v -> FB e n (bbirth bars k - 1) v).
  { intros e n' v [H1 H2]. split; [exact H1|]. intros k' Hk'. destruct (H2 k' Hk') as (w & W1 & W2). exists w. split; [apply Lc; exact W1|exact W2]. }
  assert (Lz : forall e n v, FZ e n (bbirth bars k) v -> FZ e n (bbirth bars k - 1) v).
  { intros e n' v [H1 H2]. split; [exact H1|]. intros k' Hk'. destruct (H2 k' Hk') as (W1 & W2). split; [apply Lc; exact W1|exact W2]. }
  apply (birth_step p (PZ d n) (PB d n) max_r bars g k Hp); auto.
  - intros r. apply (page2_bounds_sub _ _ _ _ _ _ _ _ HI S d n r Hd).
  - intros v [H1 H2]. split; [apply Lz; exact H1|]. destruct n; [exact I|apply Lb; exact H2].
  - intros v [H1 (w & H2 & H3)]. split; [apply (fam_cycle_mono Dist p IN n0 nerve S d n (bbirth bars k - 1)); [lia|exact H1]|].
    exists w. split; [apply (fam_cycle_mono Dist p IN n0 nerve S d (Datatypes.S n) (bbirth bars k - 1)); [lia|exact H2]|apply (fam_bounds_mono Dist p IN n0 nerve S d n (bbirth bars k - 1)); [lia|exact H3]].
Qed.

Local Notation plev := (plev rnd Dist max_r p IN n0 nerve S).
Local Notation levels := (levels rnd Dist max_r p IN n0 nerve S np).

(** The pages of the two columns. *)
Lemma ta_levels n d : (n < 2)%nat -> (d < m)%nat -> exists V I, plev P n d (np - 1) V I /\ levels P n d I (b_dim V).
Proof.
  intros Hn Hd. destruct (ta_first _ _ _ _ _ _ _ _ _ _ TA n d Hn Hd) as (H & I & reps & EH & EI & ED & ER & G).
  assert (X : levels P n d I (b_dim H)).
  { intros k. induction k as [|k IH]; [lia|]. intros Hk. destruct k as [|k].
    - exists H. split; [|reflexivity]. apply (plev_first argsort rnd Dist max_r max_dim p IN n0 nerve HI S PO HN Hlen np Hnp Hr P n d H I reps); auto.
    - destruct IH as (V & PV & DV); [lia|].
      destruct (plev_step argsort rnd Dist max_r max_dim p IN n0 nerve HI S PO Hlen np Hnp Hr P n d (Datatypes.S (Datatypes.S k)) V I Hd ltac:(lia)) as (V' & PV' & DV').
      + replace (Datatypes.S (Datatypes.S k) - 1)%nat with (Datatypes.S k) by lia. exact PV.
      + apply (ta_step _ _ _ _ _ _ _ _ _ _ TA); auto; lia.
      + exists V'. split; [exact PV'|lia]. }
  destruct (X (np - 1)%nat ltac:(lia)) as (V & PV & DV). exists V, I. split; [exact PV|]. rewrite DV. exact X.
Qed.

Lemma page_dim_rb n d : (n < length nerve)%nat -> (d < m)%nat -> page_dim1 S n d = Ok (length (rb d n)).
Proof.
  intros Hn Hd. rewrite (page_dim_ok _ _ _ _ _ _ _ _ _ HI S PO) by (auto; lia). f_equal.
  pose proof (before_start _ _ _ _ _ _ _ _ _ HI S PO n d (length (lev n)) Hn Hd (le_n _)) as X.
  rewrite firstn_all2 in X by (rewrite dims_length; apply le_n). rewrite X. symmetry. apply row_bars_length.
Qed.
Lemma page_dim_last d : (d < m)%nat -> page_dim1 S (length nerve) d = Ok 0%nat.
Proof.
  intros Hd. unfold page_dim1. rewrite (nth_err_nth (s_cols S) (length nerve) no_column) by (rewrite (po_cols _ _ _ _ _ _ _ _ _ _ PO); lia). cbn [bind].
  rewrite (po_last _ _ _ _ _ _ _ _ _ _ PO). cbn [c_dim]. rewrite (nth_err_nth _ d 0%nat) by (rewrite repeat_length; exact Hd). f_equal. apply nth_repeat.
Qed.

(** The other columns have no classes. *)
Lemma page_dim_thin n d x : (2 <= n)%nat -> (d < m)%nat -> page_dim S P (np - 1) n d = Ok x -> x = 0%nat.
Proof.
  intros Hn Hd E. unfold page_dim in E. destruct (Nat.eqb_spec (np - 1) 1) as [E1|E1].
  - destruct (Nat.lt_total n (length nerve)) as [L|[L|L]].
    + rewrite page_dim_rb in E by auto. injection E as <-. unfold row_bars. rewrite Htop by exact Hn. reflexivity.
    + rewrite L, page_dim_last in E by exact Hd. injection E as <-. reflexivity.
    + unfold page_dim1 in E. destruct (nth_err (s_cols S) n) as [c|] eqn:En; [|discriminate]. apply nth_err_lt in En. rewrite (po_cols _ _ _ _ _ _ _ _ _ _ PO) in En. lia.
  - destruct (ta_thin _ _ _ _ _ _ _ _ _ _ TA (np - 2) ltac:(lia) n d Hn) as [_ X]. replace (Datatypes.S (np - 2)) with (np - 1)%nat in X by lia. apply X. exact E.
Qed.

(** No bars on the first page, no bars on the second. *)
Lemma no_bars d n H I reps : (d < m)%nat -> gens Dist max_r p IN n0 nerve S d n H I reps -> rb d n = [] -> b_dim H = 0%nat.
Proof.
  intros Hd G E. destruct (Nat.eq_dec (b_dim H) 0) as [|Hne]; [auto|]. exfalso.
  pose proof (ge_wb _ _ _ _ _ _ _ _ _ _ _ _ G) as PB1. pose proof (ge_dim _ _ _ _ _ _ _ _ _ _ _ _ G) as Ld.
  pose proof (wb_bar p max_r _ _ _ _ PB1 0%nat ltac:(lia)) as Bar. destruct PB1 as (_ & HQ & _). destruct (HQ (bbirth (b_bars H) 0) ltac:(lia)) as (_ & _ & HQ3).
  assert (X : 1 mod p = 0); [|rewrite Z.mod_1_l in X by (apply prime_ge_2 in Hp; lia); discriminate].
  apply (HQ3 (fun k => if Nat.eqb k 0 then 1 else 0)) with (k := 0%nat); [| |lia].
  - intros [|k] Hk; [exfalso; apply Hk; lia|reflexivity].
  - apply (subs_zero p Hp); [apply (page2_bounds_sub _ _ _ _ _ _ _ _ HI S d n _ Hd)|]. intros x. apply cong_eq. apply Zsum_0. intros k Hk.
    replace (cmb d n _ x) with 0; [ring|]. unfold fam_comb. rewrite E. reflexivity.
Qed.

Lemma page_dim_one d H1 I1 x : (d < m)%nat -> plev P 1 d (np - 1) H1 I1 -> levels P 1 d I1 (b_dim H1) -> page_dim S P (np - 1) 1 d = Ok x -> x = 0%nat -> b_dim H1 = 0%nat.
Proof.
  intros Hd (T1 & J1 & reps1 & _ & _ & _ & _ & _ & _ & G1 & _) LV E ->. unfold page_dim in E. destruct (Nat.eqb_spec (np - 1) 1) as [E1|E1].
  - rewrite page_dim_rb in E by auto. injection E as E. apply (no_bars d 1 H1 I1 reps1 Hd G1). destruct (rb d 1); [reflexivity|discriminate].
  - destruct (LV (np - 2)%nat ltac:(lia)) as (V & (T & J & r & _ & _ & ED & _ & _ & DT & _) & DV). replace (Datatypes.S (np - 2)) with (np - 1)%nat in ED by lia. rewrite ED in E. injection E as E. lia.
Qed.

(** The extension matrix of a diagonal. *)
Lemma extension_matrix_two d H0 I0 H1 I1 r E : (Datatypes.S d < m)%nat ->
  plev P 1 d (np - 1) H1 I1 -> levels P 1 d I1 (b_dim H1) -> plev P 0 (Datatypes.S d) (np - 1) H0 I0 -> levels P 0 (Datatypes.S d) I0 (b_dim H0) ->
  extension_matrix rnd S P np (Datatypes.S d) (0%nat :: b_dim H0 :: (b_dim H0 + b_dim H1)%nat :: repeat (b_dim H0 + b_dim H1)%nat r) = Ok E ->
  nrows E = (b_dim H0 + b_dim H1)%nat /\ ncols E = (b_dim H0 + b_dim H1)%nat /\ wf_mat E /\
  (forall i k, get E i k <> 0 -> (i < b_dim H0)%nat /\ (b_dim H0 <= k < b_dim H0 + b_dim H1)%nat) /\
  (forall a b, (a < b_dim H0)%nat -> (b < b_dim H1)%nat -> get E a (b_dim H0 + b) <> 0 -> bbirth (b_bars H0) a <= bdeath (b_bars H1) b) /\
    exists u, forall b, (b < b_dim H1)%nat ->
      FC (Datatypes.S d) 0 (bbirth (b_bars H1) b) (u b) /\ (forall x, cong p (dD d 0 (u b) x) (-1 * ch d (cmb d 1 (Spec_IK.column (b_coords H1) b)) x)) /\
      (bdeath (b_bars H1) b < max_r -> exists v, FC (Datatypes.S d) 1 (bdeath (b_bars H1) b) v /\ (forall x, cong p (dD d 1 v x) (cmb d 1 (Spec_IK.column (b_coords H1) b) x)) /\
         PB (Datatypes.S d) 0 (bdeath (b_bars H1) b) (fun x => u b x + -1 * ch (Datatypes.S d) v x - Zsum (b_dim H0) (fun a => get E a (b_dim H0 + b) * cmb (Datatypes.S d) 0 (Spec_IK.column (b_coords H0) a) x))).
Proof.
  intros Hd PV1 LV1 PV0 LV0 E1. assert (Hd' : (d < m)%nat) by lia.
  set (h0 := b_dim H0) in *. set (h1 := b_dim H1) in *. set (T := (h0 + h1)%nat) in *.
  unfold extension_matrix in E1. rewrite (po_nerve _ _ _ _ _ _ _ _ _ _ PO) in E1. set (rest := repeat T r) in *.
  assert (La : last (0%nat :: h0 :: T :: rest) 0%nat = T) by (unfold rest; clear; induction r as [|k IH]; [reflexivity|destruct k; [reflexivity|exact IH]]).
  rewrite La in E1. set (step := fun (M : mat) (n : nat) => _) in E1.
  assert (S2 : forall M n M', (2 <= n)%nat -> step M n = Ok M' -> M' = M).
  { intros M n M' Hn Es. unfold step in Es. destruct (page_dim S P (np - 1) n (Datatypes.S d - n)) as [x|] eqn:Ex; [|discriminate]. cbn [bind] in Es. apply page_dim_thin in Ex; [|exact Hn|lia]. subst x. injection Es as <-. reflexivity. }
  assert (S3 : forall l M M', (forall n, In n l -> (2 <= n)%nat) -> foldM step l M = Ok M' -> M' = M).
  { induction l as [|n l IH]; intros M M' Hl Es; cbn [foldM] in Es; [injection Es as <-; reflexivity|]. destruct (step M n) as [M1|] eqn:E3; [|discriminate]. cbn [bind] in Es.
    apply S2 in E3; [|apply Hl; left; reflexivity]. subst M1. apply IH; [intros n' Hn'; apply Hl; right; exact Hn'|exact Es]. }
  assert (E2 : step (mzero T T) 1%nat = Ok E).
  { destruct (Nat.min (Datatypes.S d + 1) (1 + length nerve) - 1)%nat as [|c] eqn:Ec; [lia|]. cbn [seq foldM] in E1. destruct (step _ 1%nat) as [M|]; [|discriminate]. cbn [bind] in E1.
    apply S3 in E1; [subst E; reflexivity|]. intros n Hn. apply in_seq in Hn. lia. }
  clear E1 S2 S3. unfold step in E2. clear step. replace (Datatypes.S d - 1)%nat with d in E2 by lia.
  destruct (page_dim S P (np - 1) 1 d) as [x1|] eqn:Ex1; [|discriminate]. cbn [bind] in E2.
  pose proof (page_dim_one d H1 I1 x1 Hd' PV1 LV1 Ex1) as Hx1. fold h1 in Hx1. clear Ex1.
  assert (Wf0 : h1 = 0%nat -> nrows E = T -> ncols E = T -> wf_mat E -> (forall i k, (i < T)%nat -> (k < T)%nat -> get E i k = 0) -> 
     nrows E = T /\ ncols E = T /\ wf_mat E /\ (forall i k, get E i k <> 0 -> (i < h0)%nat /\ (h0 <= k < T)%nat)).
  { intros Z1 A1 A2 A3 A4. split; [exact A1|]. split; [exact A2|]. split; [exact A3|]. intros i k Hne. exfalso. apply Hne.
    destruct (Nat.lt_ge_cases i T) as [Hi|Hi]; [|apply get_out; auto; lia]. destruct (Nat.lt_ge_cases k T) as [Hk|Hk]; [apply A4; auto|].
    unfold get, col. rewrite nth_overflow by (unfold ncols in A2; unfold vec in *; lia). unfold vget. destruct i; reflexivity. }
  destruct (Nat.eq_dec h1 0) as [Z1|Z1].
  - assert (F : nrows E = T /\ ncols E = T /\ wf_mat E /\ (forall i k, (i < T)%nat -> (k < T)%nat -> get E i k = 0)).
    { assert (F0 : nrows (mzero T T) = T /\ ncols (mzero T T) = T /\ wf_mat (mzero T T) /\ (forall i k, (i < T)%nat -> (k < T)%nat -> get (mzero T T) i k = 0)).
      { split; [reflexivity|]. split; [apply mzero_ncols|]. split; [apply mzero_wf|]. intros; apply mzero_get. }
      destruct (Nat.ltb 0 _); [|injection E2 as <-; exact F0].
      destruct (extension _ _ _ _ _ _) as [exts|]; [|discriminate]. cbn [bind] in E2. change (nth_err (0%nat :: h0 :: T :: rest) 1) with (Ok h0) in E2. change (nth_err (0%nat :: h0 :: T :: rest) (1 + 1)) with (Ok T) in E2. cbn [bind] in E2.
      refine (foldM_inv _ (fun M => nrows M = T /\ ncols M = T /\ wf_mat M /\ (forall i k, (i < T)%nat -> (k < T)%nat -> get M i k = 0)) _ _ _ _ F0 E2).
      intros M ib M' _ (B1 & B2 & B3 & B4) EM. destruct (snd ib) as [blk|]; [|injection EM as <-; auto]. destruct (Nat.ltb 0 (nrows blk)); [|injection EM as <-; auto].
      match type of EM with bind ?x _ = _ => destruct x as [r0|]; [|discriminate] end. cbn [bind] in EM. match type of EM with bind ?x _ = _ => destruct x as [r1|]; [|discriminate] end. cbn [bind] in EM.
      destruct (set_block_get _ _ _ _ _ _ _ B3 EM) as (C1 & C2 & C3 & C4). rewrite C1, C2. split; [exact B1|]. split; [exact B2|]. split; [exact C3|]. intros i k Hi Hk. rewrite C4 by lia.
      replace (Nat.leb h0 k && Nat.ltb k T) with false; [rewrite andb_false_r; apply B4; auto|]. symmetry. apply andb_false_iff. destruct (Nat.leb_spec h0 k); [right; apply Nat.ltb_ge; unfold T; lia|auto]. }
    destruct F as (A1 & A2 & A3 & A4). destruct (Wf0 Z1 A1 A2 A3 A4) as (B1 & B2 & B3 & B4). do 4 (split; [assumption|]). split; [intros; lia|]. exists (fun _ _ => 0). intros b Hb. lia.
  - assert (Hpos : (0 < x1)%nat) by (destruct x1; [elim Z1; auto|lia]).
    apply Nat.ltb_lt in Hpos. rewrite Hpos in E2. destruct (extension rnd S P np 1 d) as [exts|] eqn:EX; [|discriminate]. cbn [bind] in E2.
    destruct (extension_two _ _ _ _ _ _ _ _ _ HI S PO HN Hlen np Hnp Hr Htop P d H1 I1 H0 I0 exts Hd PV1 LV1 PV0 LV0 ltac:(fold h1; lia) EX) as (o0 & o1 & -> & A0 & A1 & A2 & u & Hu).
    change (nth_err (0%nat :: h0 :: T :: rest) 1) with (Ok h0) in E2. change (nth_err (0%nat :: h0 :: T :: rest) (1 + 1)) with (Ok T) in E2. cbn [bind] in E2.
    unfold enum in E2. cbn [length seq combine foldM fst snd] in E2. cbn [Nat.sub Nat.add] in E2.
    change (nth_err (0%nat :: h0 :: T :: rest) 1) with (Ok h0) in E2. change (nth_err (0%nat :: h0 :: T :: rest) 2) with (Ok T) in E2. change (nth_err (0%nat :: h0 :: T :: rest) 0) with (Ok 0%nat) in E2. cbn [bind] in E2.
    match type of E2 with bind ?x _ = _ => destruct x as [M0|] eqn:EM0; [|discriminate] end. cbn [bind] in E2.
    assert (F0 : nrows M0 = T /\ ncols M0 = T /\ wf_mat M0 /\ forall i k, (i < T)%nat -> (k < T)%nat -> get M0 i k = 0).
    { assert (F0 : nrows (mzero T T) = T /\ ncols (mzero T T) = T /\ wf_mat (mzero T T) /\ (forall i k, (i < T)%nat -> (k < T)%nat -> get (mzero T T) i k = 0)).
      { split; [reflexivity|]. split; [apply mzero_ncols|]. split; [apply mzero_wf|]. intros; apply mzero_get. }
      destruct o0 as [A|]; [|injection EM0 as <-; exact F0]. destruct (Nat.ltb 0 (nrows A)); [|injection EM0 as <-; exact F0].
      destruct F0 as (B1 & B2 & B3 & B4). destruct (set_block_get _ _ _ _ _ _ _ B3 EM0) as (C1 & C2 & C3 & C4). rewrite C1, C2. split; [exact B1|]. split; [exact B2|]. split; [exact C3|]. intros i k Hi Hk. rewrite C4 by lia.
      destruct (_ && _); [apply A0|apply B4; auto]. }
    clear EM0. destruct F0 as (B1 & B2 & B3 & B4).
    match type of E2 with bind ?x _ = _ => destruct x as [M1|] eqn:EM1; [|discriminate] end. cbn [bind] in E2. injection E2 as <-.
    set (e := fun a b => match o1 with Some A => get A a b | None => 0 end) in *. cbv zeta in A2.
    assert (F1 : nrows M1 = T /\ ncols M1 = T /\ wf_mat M1 /\ (forall i k, (i < T)%nat -> (k < T)%nat -> get M1 i k = if Nat.ltb i h0 && Nat.leb h0 k then e i (k - h0)%nat else 0)).
    { assert (Z0 : h0 = 0%nat -> M1 = M0 -> nrows M1 = T /\ ncols M1 = T /\ wf_mat M1 /\ (forall i k, (i < T)%nat -> (k < T)%nat -> get M1 i k = if Nat.ltb i h0 && Nat.leb h0 k then e i (k - h0)%nat else 0)).
      { intros X ->. split; [exact B1|]. split; [exact B2|]. split; [exact B3|]. intros i k Hi Hk. replace (Nat.ltb i h0) with false by (symmetry; apply Nat.ltb_ge; lia). apply B4; auto. }
      destruct o1 as [A|]; [|injection EM1 as <-; apply Z0; auto]. destruct A1 as [A1 A1']. destruct (Nat.ltb_spec 0 (nrows A)) as [L|L]; [|injection EM1 as <-; apply Z0; auto; lia].
      destruct (set_block_get _ _ _ _ _ _ _ B3 EM1) as (C1 & C2 & C3 & C4). rewrite C1, C2. split; [exact B1|]. split; [exact B2|]. split; [exact C3|]. intros i k Hi Hk. rewrite C4 by lia.
      replace (Nat.leb 0 i) with true by (symmetry; apply Nat.leb_le; lia). replace (Nat.ltb k T) with true by (symmetry; apply Nat.ltb_lt; lia). cbn [andb]. rewrite andb_true_r, Nat.sub_0_r.
      destruct (_ && _); [reflexivity|apply B4; auto]. }
    destruct F1 as (C1 & C2 & C3 & C4).
    assert (Ge : forall a b, (a < h0)%nat -> (b < h1)%nat -> get M1 a (h0 + b) = e a b).
    { intros a b Ha Hb. rewrite C4 by (unfold T; lia). replace (Nat.ltb a h0) with true by (symmetry; apply Nat.ltb_lt; lia). replace (Nat.leb h0 (h0 + b)) with true by (symmetry; apply Nat.leb_le; lia). cbn [andb]. f_equal. lia. }
    split; [exact C1|]. split; [exact C2|]. split; [exact C3|]. split; [|split].
    + intros i k Hne. destruct (Nat.lt_ge_cases i T) as [Hi|Hi]; [|elim Hne; apply get_out; auto; lia]. 
      destruct (Nat.lt_ge_cases k T) as [Hk|Hk]; [|elim Hne; unfold get, col; rewrite nth_overflow by (unfold ncols in C2; unfold vec in *; lia); unfold vget; destruct i; reflexivity].
      rewrite C4 in Hne by auto. destruct (Nat.ltb_spec i h0); [|elim Hne; reflexivity]. destruct (Nat.leb_spec h0 k); [|elim Hne; reflexivity]. lia.
    + intros a b Ha Hb Hne. rewrite Ge in Hne by auto. apply A2; auto.
    + exists u. intros b Hb. destruct (Hu b Hb) as (U1 & U2 & U3). split; [exact U1|]. split; [exact U2|]. intros L. destruct (U3 L) as (v & V1 & V2 & V3). exists v. split; [exact V1|]. split; [exact V2|].
      refine (sub_ext p _ _ _ (page2_bounds_sub _ _ _ _ _ _ _ _ HI S (Datatypes.S d) 0 _ Hd) _ V3). intros x. cbv beta. f_equal. apply Zsum_ext. intros a Ha. rewrite Ge by auto. reflexivity.
Qed.

Lemma barcode_none E : barcode p (pres_cycle p []) (pres_bounds p [] E) max_r [].
Proof.
  split; [intros x []|]. intros r s _. exists (fun _ _ => 0). change (count_bars (spans r s) []) with 0%nat. split; [intros; lia|]. split; [|intros; lia].
  intros v Hv. exists (fun _ => 0). split; [reflexivity|]. exists (fun _ => 0). split; [intros k Hk; rewrite Zmod_0_l in Hk; contradiction|].
  intros i. cbn [length Zsum]. rewrite Z.sub_0_r, Zmod_0_l. destruct (Z.eq_dec (v i mod p) 0) as [|Hne]; [auto|]. destruct (Hv i Hne) as [X _]. cbn in X. lia.
Qed.

Hypothesis Htwo : two_cover IN n0 nerve.

(** The persistent homology found on a diagonal. *)
Theorem diagonal_two d o : (Datatypes.S d < m)%nat -> fine Dist max_r IN n0 (Datatypes.S d) -> fine Dist max_r IN n0 (Datatypes.S (Datatypes.S d)) ->
  diagonal rnd S P np (Datatypes.S d) = Ok o -> rips_barcode p Dist max_r (Datatypes.S d) (match o with Some b => b_bars b | None => [] end).
Proof.
  intros Hd Hf1 Hf2 E. assert (Hd' : (d < m)%nat) by lia.
  destruct (ta_levels 0 (Datatypes.S d) ltac:(lia) Hd) as (H0 & I0 & PV0 & LV0). destruct (ta_levels 1 d ltac:(lia) Hd') as (H1 & I1 & PV1 & LV1).
  pose proof PV0 as (T0 & J0 & reps0 & EH0 & _ & ED0 & _ & EB0 & DT0 & G0 & _). pose proof PV1 as (T1 & J1 & reps1 & EH1 & _ & ED1 & _ & EB1 & DT1 & G1 & _).
  replace (Datatypes.S (np - 1)) with np in ED0, ED1 by lia. rewrite DT0 in ED0. rewrite DT1 in ED1.
  pose proof (ge_pb _ _ _ _ _ _ _ _ _ _ _ _ G0 ltac:(first [left; reflexivity | right; unfold row_bars; rewrite Htop by lia; reflexivity])) as PB0. pose proof (ge_dim _ _ _ _ _ _ _ _ _ _ _ _ G0) as L0.
  pose proof (ge_pb _ _ _ _ _ _ _ _ _ _ _ _ G1 ltac:(first [left; reflexivity | right; unfold row_bars; rewrite Htop by lia; reflexivity])) as PB1. pose proof (ge_dim _ _ _ _ _ _ _ _ _ _ _ _ G1) as L1.
  unfold diagonal in E. rewrite (po_nerve _ _ _ _ _ _ _ _ _ _ PO) in E.
  set (T := (b_dim H0 + b_dim H1)%nat). set (cs := Nat.min (Datatypes.S d + 1) (1 + length nerve)) in *.
  assert (Ecs : exists c, cs = Datatypes.S (Datatypes.S c)) by (exists (cs - 2)%nat; unfold cs; lia). destruct Ecs as (c & Ecs).
  destruct (diagonal_dims P np (Datatypes.S d) (1 + length nerve)) as [dims|] eqn:Ed; [|discriminate]. cbn [bind] in E.
  assert (Edims : exists r, dims = 0%nat :: b_dim H0 :: T :: repeat T r).
  { unfold diagonal_dims in Ed. fold cs in Ed. destruct (mapM _ (seq 0 cs)) as [ds|] eqn:Em; [|discriminate]. cbn [bind] in Ed. injection Ed as <-. rewrite Ecs in Em. cbn [seq mapM] in Em.
    rewrite Nat.sub_0_r, ED0 in Em. cbn [bind] in Em. replace (Datatypes.S d - 1)%nat with d in Em by lia. rewrite ED1 in Em. cbn [bind] in Em.
    destruct (mapM _ (seq 2 c)) as [ds'|] eqn:Em'; [|discriminate]. cbn [bind] in Em. injection Em as <-. exists (length ds'). cbn [cumulate]. rewrite Nat.add_0_l. fold T. do 3 f_equal.
    destruct (mapM_Ok _ _ _ Em') as [Lm Hm].
    assert (Z0 : forall k, (k < length ds')%nat -> nth k ds' 0%nat = 0%nat).
    { intros k Hk. specialize (Hm k 0%nat 0%nat ltac:(lia)). rewrite seq_length in Lm. rewrite seq_nth in Hm by lia.
      destruct (ta_thin _ _ _ _ _ _ _ _ _ _ TA (np - 1) ltac:(lia) (2 + k)%nat (Datatypes.S d - (2 + k))%nat ltac:(lia)) as [_ X]. replace (Datatypes.S (np - 1)) with np in X by lia. apply X. exact Hm. }
    clear -Z0. induction ds' as [|x ds' IH]; [reflexivity|]. cbn [cumulate length repeat]. pose proof (Z0 0%nat ltac:(cbn; lia)) as X. cbn in X. subst x. rewrite Nat.add_0_r. f_equal. apply IH. intros k Hk. apply (Z0 (Datatypes.S k)). cbn. lia. }
  destruct Edims as (r & ->).
  assert (La : last (0%nat :: b_dim H0 :: T :: repeat T r) 0%nat = T) by (clear; induction r as [|k IH]; [reflexivity|destruct k; [reflexivity|exact IH]]).
  rewrite La in E.
  destruct (Nat.ltb_spec 0 T) as [HT|HT].
  2:{ injection E as <-. assert (N0 : b_bars H0 = []) by (destruct (b_bars H0); [reflexivity|cbn in L0; unfold T in HT; lia]). assert (N1 : b_bars H1 = []) by (destruct (b_bars H1); [reflexivity|cbn in L1; unfold T in HT; lia]).
      rewrite N0 in PB0. rewrite N1 in PB1.
      apply (two_columns_fam _ _ _ _ _ _ _ _ _ HI S PO Hlen (Htop 2 (le_n _)) (proj2 HN) Htwo d [] [] _ _ (fun _ _ => 0) (-1) (Mat 0 []) [] Hd Hf1 Hf2 eq_refl PB0 PB1); cbn [length]; try (intros; lia); [|apply barcode_none].
      intros i k Hne. exfalso. apply Hne. unfold get, col. cbn [cols]. destruct k; destruct i; reflexivity. }
  destruct (extension_matrix rnd S P np (Datatypes.S d) _) as [E1|] eqn:EE; [|discriminate]. cbn [bind] in E.
  destruct (mapM _ (seq 0 cs)) as [bl|] eqn:Ebl; [|discriminate]. cbn [bind] in E.
  assert (Fb : forall h, b_dim h = length (b_bars h) -> (if Nat.ltb 0 (b_dim h) then b_bars h else []) = b_bars h).
  { intros h Eh. destruct (Nat.ltb_spec 0 (b_dim h)) as [|X]; [reflexivity|]. destruct (b_bars h); [reflexivity|cbn in Eh; lia]. }
  assert (Cbl : concat bl = b_bars H0 ++ b_bars H1).
  { rewrite Ecs in Ebl. cbn [seq mapM] in Ebl. rewrite Nat.sub_0_r, EH0 in Ebl. cbn [bind] in Ebl. replace (Datatypes.S d - 1)%nat with d in Ebl by lia. rewrite EH1 in Ebl. cbn [bind] in Ebl.
    destruct (mapM _ (seq 2 c)) as [bl'|] eqn:Em'; [|discriminate]. cbn [bind] in Ebl. injection Ebl as <-. cbn [concat]. rewrite !Fb by congruence. rewrite EB0, EB1. f_equal. rewrite <- (app_nil_r (b_bars H1)) at 2. f_equal.
    destruct (mapM_Ok _ _ _ Em') as [Lm Hm]. rewrite seq_length in Lm.
    assert (Z0 : forall k, (k < length bl')%nat -> nth k bl' [] = []).
    { intros k Hk. specialize (Hm k 0%nat [] ltac:(rewrite seq_length; lia)). rewrite seq_nth in Hm by lia.
      destruct (tget (h_hom P) (np - 1) (2 + k) (Datatypes.S d - (2 + k))) as [h|] eqn:Eh; [|discriminate]. cbn [bind] in Hm.
      destruct (ta_thin _ _ _ _ _ _ _ _ _ _ TA (np - 1) ltac:(lia) (2 + k)%nat (Datatypes.S d - (2 + k))%nat ltac:(lia)) as [X _]. rewrite (X h Eh) in Hm. injection Hm as <-. reflexivity. }
    clear -Z0. induction bl' as [|x bl' IH]; [reflexivity|]. cbn [concat]. pose proof (Z0 0%nat ltac:(cbn; lia)) as X. cbn in X. subst x. apply IH. intros k Hk. apply (Z0 (Datatypes.S k)). cbn. lia. }
  rewrite Cbl in E. clear bl Ebl Cbl Fb.
  destruct (extension_matrix_two d H0 I0 H1 I1 r E1 Hd PV1 LV1 PV0 LV0 EE) as (N1 & C1 & W1 & Sh & Bi & u & Hu).
  rewrite (po_p _ _ _ _ _ _ _ _ _ _ PO), (po_max_r _ _ _ _ _ _ _ _ _ _ PO) in E.
  set (bars := b_bars H0 ++ b_bars H1) in *. assert (Lb : length bars = T) by (unfold bars; rewrite app_length; unfold T; lia).
  assert (NZ : forall x, ~ cong p x 0 -> x <> 0) by (intros x Hx ->; apply Hx; reflexivity).
  assert (NZ' : forall x, x mod p <> 0 -> x <> 0) by (intros x Hx ->; apply Hx; apply Zmod_0_l).
  assert (Br0 : forall a, (a < b_dim H0)%nat -> bbirth bars a = bbirth (b_bars H0) a /\ bdeath bars a = bdeath (b_bars H0) a) by (intros a Ha; unfold bars, bbirth, bdeath; rewrite app_nth1 by lia; auto).
  assert (Br1 : forall b, bbirth bars (b_dim H0 + b) = bbirth (b_bars H1) b /\ bdeath bars (b_dim H0 + b) = bdeath (b_bars H1) b) by (intros b; unfold bars, bbirth, bdeath; rewrite app_nth2 by lia; rewrite L0; replace (length (b_bars H0) + b - length (b_bars H0))%nat with b by lia; auto).
  destruct (assemble_barcode rnd p max_r bars E1 Hp) as (PH & EP & HB).
  - intros X. rewrite X in Lb. cbn in Lb. lia.
  - intros x Hx. unfold bars in Hx. apply in_app_or in Hx. destruct Hx as [Hx|Hx]; [apply (proj1 PB0)|apply (proj1 PB1)]; exact Hx.
  - rewrite Lb. exact N1.
  - rewrite Lb. exact C1.
  - exact W1.
  - intros i k Hi Hk Hne. apply NZ' in Hne. destruct (Sh i k Hne) as [S1 S2]. rewrite (proj1 (Br0 i S1)). replace k with (b_dim H0 + (k - b_dim H0))%nat in Hne |- * by lia. rewrite (proj2 (Br1 _)). apply Bi; [exact S1|lia|exact Hne].
  - intros i k l Hi Hk Hl Hne. apply NZ' in Hne. destruct (Sh i k Hne) as [S1 S2]. destruct (Z.eq_dec (get E1 l i) 0) as [->|X]; [apply Zmod_0_l|]. destruct (Sh l i X). lia.
  - assert (Bv : forall x, In x bars -> filtration_value Dist max_r (fst x)).
    { intros x Hx. unfold bars in Hx. apply in_app_or in Hx. destruct Hx as [Hx|Hx]; apply (In_nth _ _ (0, 0)) in Hx; destruct Hx as (k & Hk & <-).
      - apply (birth_value (Datatypes.S d) 0 (b_bars H0) _ k Hd PB0 Hk).
      - apply (birth_value d 1 (b_bars H1) _ k Hd' PB1 Hk). }
    intros x y Hx Hy. apply Hrnd; apply Bv; auto.
  - rewrite EP in E. cbn [bind] in E. injection E as <-.
    apply (two_columns_fam _ _ _ _ _ _ _ _ _ HI S PO Hlen (Htop 2 (le_n _)) (proj2 HN) Htwo d (b_bars H0) (b_bars H1) _ _ u (-1) E1 (b_bars PH) Hd Hf1 Hf2 eq_refl PB0 PB1).
    + intros b Hb. rewrite <- L1 in Hb. destruct (Hu b Hb) as (U1 & U2 & _). split; [exact U1|exact U2].
    + intros i k Hne. rewrite <- L0, <- L1. apply Sh. apply NZ. exact Hne.
    + rewrite <- L0, <- L1. intros a b Ha Hb Hne. apply Bi; auto.
    + rewrite <- L0, <- L1. intros b Hb Hlt. destruct (Hu b Hb) as (_ & _ & U3). exact (U3 Hlt).
    + exact HB.
Qed.
End Diag.

(** The persistent homology found by [mv_ss] in positive degrees for a nerve with edges but no triangles. *)
Theorem mv_two_columns argsort rnd Dist max_r max_dim p IN n0 nerve S P Hs : mv_input argsort Dist max_r max_dim p IN n0 nerve -> pure_nerve n0 nerve ->
  (forall x y, filtration_value Dist max_r x -> filtration_value Dist max_r y -> rnd x <= rnd y -> x <= y) -> (1 < length nerve)%nat -> (forall n, (2 <= n)%nat -> level n0 nerve n = []) -> two_cover IN n0 nerve ->
  mv_ss argsort rnd Dist max_r max_dim p IN n0 nerve = Ok (S, P, Hs) ->
  exists H0 O, Hs = H0 :: flat_map (fun o => match o with Some b => [b] | None => [] end) O /\ length O = (Z.to_nat max_dim - 1)%nat /\
    forall d, (Datatypes.S d < Z.to_nat max_dim)%nat -> fine Dist max_r IN n0 (Datatypes.S d) -> fine Dist max_r IN n0 (Datatypes.S (Datatypes.S d)) ->
      rips_barcode p Dist max_r (Datatypes.S d) (match nth d O None with Some b => b_bars b | None => [] end).
Proof.
  intros HI HN Hrnd Hlen Htop Htwo E. destruct (two_tables _ _ _ _ _ _ _ _ _ HI HN Hrnd Hlen Htop S P Hs E) as (PO & TA & H0 & O & EO & ->). exists H0, O. split; [reflexivity|].
  destruct (mapM_Ok _ _ _ EO) as [LO HO]. rewrite seq_length in LO, HO. split; [exact LO|]. intros d Hd Hf1 Hf2.
  specialize (HO d 0%nat (@None basis) ltac:(lia)). rewrite seq_nth in HO by lia.
  exact (diagonal_two _ _ _ _ _ _ _ _ _ HI HN Hrnd Hlen Htop S PO P TA Htwo d _ Hd Hf1 Hf2 HO).
Qed.
