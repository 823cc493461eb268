(** * [mv_ss] has a result when intersections have no homology in positive degrees *)
From Coq Require Import QArith.
From Verif Require Import Base ListX SortX Lin Gauss_model Gauss_arith Gauss_col Gauss_solve Gauss_bar Basis_model Basis_props PH_model PH_loop PH_lin PH_step PH_props Simp_model Spec_Simp Simp_lists Simp_diff Simp_props
  Spec_PH Spec_Rips Rips_bd Rips_chain Rips_props LC_model Spec_LC LC_props SS_model Spec_SS SS_inv SS_page SS_cech SS_glue SS_e2 SS_lift SS_zig SS_first SS_double SS_fplift
  IK_model IK_lin IK_abs IK_quot IK_mph MPH_props Spec_IK Spec_Bars Bars MPH_bars Bars_complex Spec_MV Spec_Cech Spec_Ext Ext_props Spec_E2 Spec_Two Blocks SS_rows Cover_model HP_model HP_table HP_row HP_gens HP_second HP_zero HP_pages HP_perm HP_two Two_col Two_fam HP_conv
  HP_ext HP_diag IK_rng SS_rng HP_shape HP_higher HP_first HP_deg HP_lift HP_refs HP_exto.
From Coq Require Import Sorted Permutation Znumtheory.
Local Open Scope Z_scope.

Local Notation e0 := (LEntry [] LNil).

Section All.
Variables (argsort : list Z -> list nat) (rnd : Z -> Z) (Dist : list (list Z)) (max_r max_dim p : Z)
  (IN : list (list (list nat))) (n0 : nat) (nerve : list (list simplex)).
Hypothesis HI : mv_input argsort Dist max_r max_dim p IN n0 nerve.
Hypothesis HN : pure_nerve n0 nerve.
Hypothesis Hrnd : forall x y, filtration_value Dist max_r x -> filtration_value Dist max_r y -> rnd x <= rnd y -> x <= y.
Hypothesis Hlen2 : (2 < length nerve)%nat.
Hypothesis Htop : forall n, (2 <= n)%nat -> level n0 nerve n = [].
Variable S : ss.
Hypothesis PO : page_ok argsort rnd Dist max_r max_dim p IN n0 nerve S.
Let m := Z.to_nat max_dim.
Hypothesis Hrow : forall d, (1 <= d < m)%nat -> row_bars n0 nerve S d 1 = [].
Local Notation np := (Z.to_nat (Z.min (max_dim + 2) (Z.of_nat (length nerve)))).
Let Hlen : (1 < length nerve)%nat. Proof. lia. Qed.
Let Hnp : (2 <= np)%nat := np_ge _ _ _ _ _ _ _ _ _ HI Hrnd Hlen Htop.
Let Hp := mv_prime _ _ _ _ _ _ _ _ HI.
Let lev n := level n0 nerve n.
Local Notation rb := (row_bars n0 nerve S).
Local Notation PZ := (page2_cycle p Dist IN n0 nerve S).
Local Notation PB := (page2_bounds p Dist IN n0 nerve S).
Let Hr d : (d < m)%nat -> forall x y, local_end n0 nerve S d x -> local_end n0 nerve S d y -> rnd x <= rnd y -> x <= y.
Proof. intros Hd x y Hx Hy. apply Hrnd; apply (end_value _ _ _ _ _ _ _ _ _ HI S PO d); auto. Qed.
Local Notation plev := (plev rnd Dist max_r p IN n0 nerve S).
Local Notation levels := (levels rnd Dist max_r p IN n0 nerve S np).
Local Notation lift_ok := (lift_ok rnd Dist max_r p IN n0 nerve S).

Let np3 : (1 <= m)%nat -> (3 <= np)%nat. Proof. unfold m. lia. Qed.

Lemma classes_rb n d : classes n0 nerve S n d = length (rb d n).
Proof.
  unfold classes, classes_before, row_bars. induction (seq 0 (length (level n0 nerve n))) as [|x l IH]; [reflexivity|]. cbn [map list_sum concat fold_right]. rewrite app_length, <- IH. reflexivity.
Qed.

(** The first page has what the higher pages need. *)
Lemma gens_repinv P n d H I reps : (n < 2)%nat -> (d < m)%nat -> tget (h_hom P) 1 n d = Ok H -> tget (h_reps P) 1 n d = Ok reps -> gens Dist max_r p IN n0 nerve S d n H I reps -> repinv P 1 n d.
Proof.
  intros Hn Hd EH ER G H' reps' EH' ER' Hpos. rewrite EH in EH'. injection EH' as <-. rewrite ER in ER'. injection ER' as <-.
  destruct (ge_over _ _ _ _ _ _ _ _ _ _ _ _ G Hpos) as (_ & _ & _ & _ & _ & HC & _). split; [exact HC|].
  destruct (ge_reps _ _ _ _ _ _ _ _ _ _ _ _ G Hpos) as (rep & rest & -> & Gr & Rr & _ & Hrest). constructor; [split; [eexists; exact Gr|exact Rr]|].
  destruct n as [|n]; [subst rest; constructor|]. destruct Hrest as (lift & -> & Gl & Rl & _). constructor; [split; [eexists; exact Gl|exact Rl]|constructor].
Qed.

Section Pages.
Variable P : pages.
Hypothesis TA : tables rnd Dist max_r max_dim p IN n0 nerve S P.
Variable cs : nat.
Hypothesis Hcs : (1 + length nerve <= cs)%nat.
Hypothesis SH : shape np cs m P.
Hypothesis RG : forall n d, (n < length nerve)%nat -> (d < m)%nat -> ranges p P d n.

Lemma all_lift_ok n d : (n < 2)%nat -> (d < m)%nat -> rb d (Datatypes.S n) = [] -> forall tp, (2 <= tp <= np)%nat -> lift_ok P n d tp.
Proof.
  intros Hn Hd Hz. destruct (ta_first _ _ _ _ _ _ _ _ _ _ TA n d Hn Hd) as (H & I & reps & EH & EI & ED & ER & G).
  destruct (ta_levels _ _ _ _ _ _ _ _ _ HI HN Hrnd Hlen Htop S PO P TA n d Hn Hd) as (V & I' & PV & LV).
  induction tp as [|tp IH]; [lia|]. intros Ht. destruct (Nat.eq_dec tp 1) as [->|Hne].
  - destruct (RG n d ltac:(lia) Hd) as (H2 & I2 & EH2 & EI2 & RH & RI). rewrite EH in EH2. injection EH2 as <-.
    apply (lift_ok_first argsort rnd Dist max_r max_dim p IN n0 nerve HI S PO HN Hlen Htop np Hnp P n d H I reps); auto.
  - destruct (LV (tp - 1)%nat ltac:(lia)) as (V1 & PV1 & DV1).
    apply (lift_ok_step argsort rnd Dist max_r max_dim p IN n0 nerve HI S PO Hlen Htop np Hnp P n d tp V1 I'); auto; [lia| |apply IH; lia].
    apply (ta_step _ _ _ _ _ _ _ _ _ _ TA); auto; lia.
Qed.

Lemma all_proper n d : (n < 2)%nat -> (d < m)%nat -> forall k, (1 <= k < np)%nat -> (forall H, tget (h_hom P) k n d = Ok H -> proper H) /\ repinv P k n d /\
  ((2 <= k)%nat -> forall H' R', tget (h_hom P) k n d = Ok H' -> tget (h_reps P) k n d = Ok R' -> fullrefs (b_dim H') R' /\ ((0 < b_dim H')%nat -> b_flat H' = false)).
Proof.
  intros Hn Hd. induction k as [|k IH]; [lia|]. intros Hk. destruct (Nat.eq_dec k 0) as [->|Hne].
  - destruct (ta_first _ _ _ _ _ _ _ _ _ _ TA n d Hn Hd) as (H & I & reps & EH & EI & ED & ER & G). split; [|split; [eapply gens_repinv; eauto|intros; lia]].
    intros H' EH'. rewrite EH in EH'. injection EH' as <-. split; [apply (ge_dim _ _ _ _ _ _ _ _ _ _ _ _ G)|].
    intros x Hx. apply (proj1 (ge_wb _ _ _ _ _ _ _ _ _ _ _ _ G)) in Hx. lia.
  - destruct (IH ltac:(lia)) as (P1 & R1 & _). pose proof (ta_step _ _ _ _ _ _ _ _ _ _ TA (Datatypes.S k) n d ltac:(lia) Hn Hd) as St.
    pose proof (stp_refs rnd P (Datatypes.S k) n d) as X. rewrite Nat.sub_succ, Nat.sub_0_r in X. destruct (X P1 St R1) as [X1 X2].
    destruct St as (H & H' & I' & R' & EH & EH' & _ & _ & _ & _ & Z0 & Z1). rewrite Nat.sub_succ, Nat.sub_0_r in EH.
    split; [|split; [exact X1|]].
    + intros H2 EH2. rewrite EH' in EH2. injection EH2 as <-. destruct (Nat.eq_dec (b_dim H) 0) as [E0|E0]; [destruct (Z0 E0) as [-> _]; apply P1; exact EH|]. destruct (Z1 ltac:(lia)) as [-> _]. apply proper_vsort. apply P1. exact EH.
    + intros _ H2 R2 EH2 ER2. split; [apply X2; auto|]. rewrite EH' in EH2. injection EH2 as <-. intros Hpos. destruct (Nat.eq_dec (b_dim H) 0) as [E0|E0]; [destruct (Z0 E0) as [-> _]; lia|]. destruct (Z1 ltac:(lia)) as [-> _]. reflexivity.
Qed.

(** The extension matrix of a diagonal is found. *)
Lemma extension_matrix_total d H0 I0 H1 I1 r : (Datatypes.S d < m)%nat ->
  plev P 1 d (np - 1) H1 I1 -> levels P 1 d I1 (b_dim H1) -> plev P 0 (Datatypes.S d) (np - 1) H0 I0 -> levels P 0 (Datatypes.S d) I0 (b_dim H0) ->
  exists E, extension_matrix rnd S P np (Datatypes.S d) (0%nat :: b_dim H0 :: (b_dim H0 + b_dim H1)%nat :: repeat (b_dim H0 + b_dim H1)%nat r) = Ok E.
Proof.
  intros Hd PV1 LV1 PV0 LV0. assert (Hd' : (d < m)%nat) by lia. pose proof (np3 ltac:(lia)) as Hnp3.
  set (h0 := b_dim H0) in *. set (h1 := b_dim H1) in *. set (T := (h0 + h1)%nat) in *.
  unfold extension_matrix. rewrite (po_nerve _ _ _ _ _ _ _ _ _ _ PO). set (rest := repeat T r) in *.
  assert (La : last (0%nat :: h0 :: T :: rest) 0%nat = T) by (unfold rest; clear; induction r as [|k IH]; [reflexivity|destruct k; [reflexivity|exact IH]]).
  rewrite La. set (step := fun (M : mat) (n : nat) => _).
  assert (S2 : forall M n, (2 <= n <= length nerve)%nat -> step M n = Ok M).
  { intros M n Hn. unfold step.
    assert (Ex : exists x, page_dim S P (np - 1) n (Datatypes.S d - n) = Ok x).
    { unfold page_dim. destruct (Nat.eqb_spec (np - 1) 1) as [E1|E1]; [lia|]. apply (sh_dim _ _ _ _ SH); lia. }
    destruct Ex as [x Ex]. rewrite Ex. cbn [bind]. apply (page_dim_thin _ _ _ _ _ _ _ _ _ HI Hrnd Hlen Htop S PO P TA) in Ex; [|lia|unfold m in *; lia]. subst x. reflexivity. }
  assert (S3 : forall l M, (forall n, In n l -> (2 <= n <= length nerve)%nat) -> foldM step l M = Ok M).
  { induction l as [|n l IH]; intros M Hl; [reflexivity|]. cbn [foldM]. rewrite S2 by (apply Hl; left; reflexivity). cbn [bind]. apply IH. intros n' Hn'. apply Hl. right. exact Hn'. }
  assert (E2 : exists E, step (mzero T T) 1%nat = Ok E).
  { unfold step. clear step S2 S3. replace (Datatypes.S d - 1)%nat with d by lia.
    assert (Ex1 : page_dim S P (np - 1) 1 d = Ok h1).
    { unfold page_dim. destruct (Nat.eqb_spec (np - 1) 1) as [E1|E1]; [lia|]. destruct (LV1 (np - 2)%nat ltac:(lia)) as (V & (X & J & rp & _ & _ & ED & _ & _ & DT & _) & DV). replace (Datatypes.S (np - 2)) with (np - 1)%nat in ED by lia. rewrite ED, DT. f_equal. exact DV. }
    rewrite Ex1. cbn [bind]. destruct (Nat.ltb_spec 0 h1) as [Hpos|Hpos]; [|eexists; reflexivity].
    assert (D0 : d = 0%nat).
    { destruct d as [|e]; [reflexivity|]. exfalso. pose proof PV1 as (_ & _ & rp & _ & _ & _ & _ & _ & _ & G1 & _).
      pose proof (gens_nil _ _ _ _ _ _ _ _ _ HI Hrnd Hlen Htop S (Datatypes.S e) 1 H1 I1 rp Hd' (Hrow (Datatypes.S e) ltac:(lia)) G1). lia. }
    subst d.
    destruct (extension_total argsort rnd Dist max_r max_dim p IN n0 nerve HI S PO HN Hlen Htop np Hnp P 0 H1 I1 H0 I0 Hd PV1 LV1 PV0 LV0 Hpos) as [exts EX].
    { intros T1 ET1. destruct (all_proper 1 0 ltac:(lia) Hd' (np - 1)%nat ltac:(lia)) as (_ & _ & X). destruct PV1 as (T1' & _ & rp & ET1' & _ & _ & ER & _ & DT & _). rewrite ET1 in ET1'. injection ET1' as <-.
      apply (proj2 (X ltac:(lia) _ _ ET1 ER)). rewrite DT. exact Hpos. }
    { apply Hrow. lia. }
    { intros k Hk Eb. apply (no_points argsort rnd Dist max_r max_dim p IN n0 nerve HI S PO Hlen 0 k 0); auto; lia. }
    { apply all_lift_ok; [lia|exact Hd'|]. unfold row_bars. rewrite (Htop 2) by lia. reflexivity. }
    { apply all_lift_ok; [lia|exact Hd|]. apply Hrow. lia. }
    { intros R ER. destruct (all_proper 1 0 ltac:(lia) Hd' (np - 1)%nat ltac:(lia)) as (_ & _ & X). destruct PV1 as (T1' & _ & rp & ET1' & _ & _ & ER' & _ & DT & _).
      destruct (X ltac:(lia) _ _ ET1' ER) as [Y _]. rewrite DT in Y. eapply Forall_impl; [|exact Y]. intros c [_ Hc]. exact Hc. }
    rewrite EX. cbn [bind].
    destruct (extension_two _ _ _ _ _ _ _ _ _ HI S PO HN Hlen np Hnp Hr Htop P 0 H1 I1 H0 I0 exts Hd PV1 LV1 PV0 LV0 Hpos EX) as (o0 & o1 & -> & A0 & A1 & _).
    change (nth_err (0%nat :: h0 :: T :: rest) 1) with (Ok h0). change (nth_err (0%nat :: h0 :: T :: rest) (1 + 1)) with (Ok T). cbn [bind].
    unfold enum. cbn [length seq combine foldM fst snd]. cbn [Nat.sub Nat.add].
    change (nth_err (0%nat :: h0 :: T :: rest) 1) with (Ok h0). change (nth_err (0%nat :: h0 :: T :: rest) 2) with (Ok T). change (nth_err (0%nat :: h0 :: T :: rest) 0) with (Ok 0%nat). cbn [bind].
    assert (SB : forall M A r0 r1 c0 c1, nrows A = (r1 - r0)%nat -> ncols A = (c1 - c0)%nat -> exists M', set_block M r0 r1 c0 c1 A = Ok M').
    { intros M A r0 r1 c0 c1 N1 N2. unfold set_block. rewrite N1, N2, !Nat.eqb_refl. eexists. reflexivity. }
    assert (B0 : exists M0, match o0 with Some blk => if Nat.ltb 0 (nrows blk) then set_block (mzero T T) h0 T h0 T blk else Ok (mzero T T) | None => Ok (mzero T T) end = Ok M0).
    { destruct o0 as [A|]; [|eexists; reflexivity]. destruct (Nat.ltb 0 (nrows A)); [|eexists; reflexivity]. destruct A0 as (N1 & N2 & _). apply SB; unfold T, h1 in *; lia. }
    destruct B0 as [M0 B0]. rewrite B0. cbn [bind].
    assert (B1 : exists M1, match o1 with Some blk => if Nat.ltb 0 (nrows blk) then set_block M0 0 h0 h0 T blk else Ok M0 | None => Ok M0 end = Ok M1).
    { destruct o1 as [A|]; [|eexists; reflexivity]. destruct (Nat.ltb 0 (nrows A)); [|eexists; reflexivity]. destruct A1 as (N1 & N2). apply SB; unfold T, h1, h0 in *; lia. }
    destruct B1 as [M1 B1]. rewrite B1. eexists. reflexivity. }
  destruct E2 as [E E2]. exists E. destruct (Nat.min (Datatypes.S d + 1) (1 + length nerve) - 1)%nat as [|c] eqn:Ec; [lia|]. cbn [seq foldM]. rewrite E2. cbn [bind]. apply S3. intros n Hn. apply in_seq in Hn. lia.
Qed.

(** Each diagonal has a result. *)
Theorem diagonal_total d : (Datatypes.S d < m)%nat -> exists o, diagonal rnd S P np (Datatypes.S d) = Ok o.
Proof.
  intros Hd. assert (Hd' : (d < m)%nat) by lia. pose proof (np3 ltac:(lia)) as Hnp3.
  destruct (ta_levels _ _ _ _ _ _ _ _ _ HI HN Hrnd Hlen Htop S PO P TA 0 (Datatypes.S d) ltac:(lia) Hd) as (H0 & I0 & PV0 & LV0). destruct (ta_levels _ _ _ _ _ _ _ _ _ HI HN Hrnd Hlen Htop S PO P TA 1 d ltac:(lia) Hd') as (H1 & I1 & PV1 & LV1).
  pose proof PV0 as (T0 & J0 & reps0 & EH0 & _ & ED0 & _ & EB0 & DT0 & G0 & _). pose proof PV1 as (T1 & J1 & reps1 & EH1 & _ & ED1 & _ & EB1 & DT1 & G1 & _).
  replace (Datatypes.S (np - 1)) with np in ED0, ED1 by lia. rewrite DT0 in ED0. rewrite DT1 in ED1.
  pose proof (ge_pb _ _ _ _ _ _ _ _ _ _ _ _ G0 ltac:(first [left; reflexivity | right; unfold row_bars; rewrite Htop by lia; reflexivity])) as PB0. pose proof (ge_dim _ _ _ _ _ _ _ _ _ _ _ _ G0) as L0.
  pose proof (ge_pb _ _ _ _ _ _ _ _ _ _ _ _ G1 ltac:(first [left; reflexivity | right; unfold row_bars; rewrite Htop by lia; reflexivity])) as PB1. pose proof (ge_dim _ _ _ _ _ _ _ _ _ _ _ _ G1) as L1.
  unfold diagonal. rewrite (po_nerve _ _ _ _ _ _ _ _ _ _ PO).
  set (T := (b_dim H0 + b_dim H1)%nat). set (w := Nat.min (Datatypes.S d + 1) (1 + length nerve)) in *.
  assert (Ecs : exists c, w = Datatypes.S (Datatypes.S c)) by (exists (w - 2)%nat; unfold w; lia). destruct Ecs as (c & Ecs).
  assert (Ed : exists dims, diagonal_dims P np (Datatypes.S d) (1 + length nerve) = Ok dims).
  { unfold diagonal_dims. fold w. destruct (mapM_total (fun n => tget (h_dim P) np n (Datatypes.S d - n)) (seq 0 w)) as (ds & Em).
    - intros n Hn. apply in_seq in Hn. destruct (sh_dim _ _ _ _ SH np n (Datatypes.S d - n)%nat ltac:(lia) ltac:(unfold w in *; lia) ltac:(lia)) as [x Ex]. exists x. exact Ex.
    - rewrite Em. eexists. reflexivity. }
  destruct Ed as [dims Ed]. rewrite Ed. cbn [bind].
  assert (Edims : exists r, dims = 0%nat :: b_dim H0 :: T :: repeat T r).
  { unfold diagonal_dims in Ed. fold w in Ed. destruct (mapM _ (seq 0 w)) as [ds|] eqn:Em; [|discriminate]. cbn [bind] in Ed. injection Ed as <-. rewrite Ecs in Em. cbn [seq mapM] in Em.
    rewrite Nat.sub_0_r, ED0 in Em. cbn [bind] in Em. replace (Datatypes.S d - 1)%nat with d in Em by lia. rewrite ED1 in Em. cbn [bind] in Em.
    destruct (mapM _ (seq 2 c)) as [ds'|] eqn:Em'; [|discriminate]. cbn [bind] in Em. injection Em as <-. exists (length ds'). cbn [cumulate]. rewrite Nat.add_0_l. fold T. do 3 f_equal.
    destruct (mapM_Ok _ _ _ Em') as [Lm Hm].
    assert (Z0 : forall k, (k < length ds')%nat -> nth k ds' 0%nat = 0%nat).
    { intros k Hk. specialize (Hm k 0%nat 0%nat ltac:(lia)). rewrite seq_length in Lm. rewrite seq_nth in Hm by lia.
      destruct (ta_thin _ _ _ _ _ _ _ _ _ _ TA (np - 1) ltac:(lia) (2 + k)%nat (Datatypes.S d - (2 + k))%nat ltac:(lia)) as [_ X]. replace (Datatypes.S (np - 1)) with np in X by lia. apply X. exact Hm. }
    clear -Z0. induction ds' as [|x ds' IH]; [reflexivity|]. cbn [cumulate length repeat]. pose proof (Z0 0%nat ltac:(cbn; lia)) as X. cbn in X. subst x. rewrite Nat.add_0_r. f_equal. apply IH. intros k Hk. apply (Z0 (Datatypes.S k)). cbn. lia. }
  destruct Edims as (r & ->).
  assert (La : last (0%nat :: b_dim H0 :: T :: repeat T r) 0%nat = T) by (clear; induction r as [|k IH]; [reflexivity|destruct k; [reflexivity|exact IH]]).
  rewrite La. destruct (Nat.ltb_spec 0 T) as [HT|HT]; [|eexists; reflexivity].
  destruct (extension_matrix_total d H0 I0 H1 I1 r Hd PV1 LV1 PV0 LV0) as [E1 EE]. fold T in EE. rewrite EE. cbn [bind].
  destruct (mapM_total (fun n => h <- tget (h_hom P) (np - 1) n (Datatypes.S d - n) ;; Ok (if Nat.ltb 0 (b_dim h) then b_bars h else [])) (seq 0 w)) as (bl & Ebl).
  { intros n Hn. apply in_seq in Hn. destruct (sh_hom _ _ _ _ SH (np - 1) n (Datatypes.S d - n)%nat ltac:(lia) ltac:(unfold w in *; lia) ltac:(lia)) as [x Ex]. rewrite Ex. eexists. reflexivity. }
  rewrite Ebl. cbn [bind].
  assert (Fb : forall h, b_dim h = length (b_bars h) -> (if Nat.ltb 0 (b_dim h) then b_bars h else []) = b_bars h).
  { intros h Eh. destruct (Nat.ltb_spec 0 (b_dim h)) as [|X]; [reflexivity|]. destruct (b_bars h); [reflexivity|cbn in Eh; lia]. }
  assert (Cbl : concat bl = b_bars H0 ++ b_bars H1).
  { rewrite Ecs in Ebl. cbn [seq mapM] in Ebl. rewrite Nat.sub_0_r, EH0 in Ebl. cbn [bind] in Ebl. replace (Datatypes.S d - 1)%nat with d in Ebl by lia. rewrite EH1 in Ebl. cbn [bind] in Ebl.
    destruct (mapM _ (seq 2 c)) as [bl'|] eqn:Em'; [|discriminate]. cbn [bind] in Ebl. injection Ebl as <-. cbn [concat]. rewrite !Fb by congruence. rewrite EB0, EB1. f_equal. rewrite <- (app_nil_r (b_bars H1)) at 2. f_equal.
    destruct (mapM_Ok _ _ _ Em') as [Lm Hm]. rewrite seq_length in Lm.
    assert (Z0 : forall k, (k < length bl')%nat -> nth k bl' [] = []).
    { intros k Hk. specialize (Hm k 0%nat [] ltac:(rewrite seq_length; lia)). rewrite seq_nth in Hm by lia.
      destruct (tget (h_hom P) (np - 1) (2 + k) (Datatypes.S d - (2 + k))) as [h|] eqn:Eh; [|discriminate]. cbn [bind] in Hm.
      destruct (ta_thin _ _ _ _ _ _ _ _ _ _ TA (np - 1) ltac:(lia) (2 + k)%nat (Datatypes.S d - (2 + k))%nat ltac:(lia)) as [X _]. rewrite (X h Eh) in Hm. injection Hm as <-. reflexivity. }
    clear -Z0. induction bl' as [|x bl' IH]; [reflexivity|]. cbn [concat]. pose proof (Z0 0%nat ltac:(cbn; lia)) as X. cbn in X. subst x. apply IH. intros k Hk. apply (Z0 (Datatypes.S k)). cbn. lia. }
  rewrite Cbl. clear bl Ebl Cbl Fb.
  destruct (extension_matrix_two _ _ _ _ _ _ _ _ _ HI HN Hrnd Hlen Htop S PO P TA d H0 I0 H1 I1 r E1 Hd PV1 LV1 PV0 LV0 EE) as (N1 & C1 & W1 & Sh & Bi & _).
  rewrite (po_p _ _ _ _ _ _ _ _ _ _ PO), (po_max_r _ _ _ _ _ _ _ _ _ _ PO).
  set (bars := b_bars H0 ++ b_bars H1) in *. assert (Lb : length bars = T) by (unfold bars; rewrite app_length; unfold T; lia).
  assert (NZ : forall x, ~ cong p x 0 -> x <> 0) by (intros x Hx ->; apply Hx; reflexivity).
  assert (NZ' : forall x, x mod p <> 0 -> x <> 0) by (intros x Hx ->; apply Hx; apply Zmod_0_l).
  assert (Br0 : forall a, (a < b_dim H0)%nat -> bbirth bars a = bbirth (b_bars H0) a /\ bdeath bars a = bdeath (b_bars H0) a) by (intros a Ha; unfold bars, bbirth, bdeath; rewrite app_nth1 by lia; auto).
  assert (Br1 : forall b, bbirth bars (b_dim H0 + b) = bbirth (b_bars H1) b /\ bdeath bars (b_dim H0 + b) = bdeath (b_bars H1) b) by (intros b; unfold bars, bbirth, bdeath; rewrite app_nth2 by lia; rewrite L0; replace (length (b_bars H0) + b - length (b_bars H0))%nat with b by lia; auto).
  destruct (assemble_barcode rnd p max_r bars E1 Hp) as (PH & EP & HB).
  - intros X. rewrite X in Lb. cbn in Lb. lia.
  - intros x Hx. unfold bars in Hx. apply in_app_or in Hx. destruct Hx as [Hx|Hx]; [apply (proj1 PB0)|apply (proj1 PB1)]; exact Hx.
  - rewrite Lb. exact N1.
  - rewrite Lb. exact C1.
  - exact W1.
  - intros i k Hi Hk Hne. apply NZ' in Hne. destruct (Sh i k Hne) as [S1 S2]. rewrite (proj1 (Br0 i S1)). replace k with (b_dim H0 + (k - b_dim H0))%nat in Hne |- * by lia. rewrite (proj2 (Br1 _)). apply Bi; [exact S1|lia|exact Hne].
  - intros i k l Hi Hk Hl Hne. apply NZ' in Hne. destruct (Sh i k Hne) as [S1 S2]. destruct (Z.eq_dec (get E1 l i) 0) as [->|X]; [apply Zmod_0_l|]. destruct (Sh l i X). lia.
  - assert (Bv : forall x, In x bars -> filtration_value Dist max_r (fst x)).
    { intros x Hx. unfold bars in Hx. apply in_app_or in Hx. destruct Hx as [Hx|Hx]; apply (In_nth _ _ (0, 0)) in Hx; destruct Hx as (k & Hk & <-).
      - apply (birth_value _ _ _ _ _ _ _ _ _ HI Hrnd Hlen Htop S PO (Datatypes.S d) 0 (b_bars H0) _ k Hd PB0 Hk).
      - apply (birth_value _ _ _ _ _ _ _ _ _ HI Hrnd Hlen Htop S PO d 1 (b_bars H1) _ k Hd' PB1 Hk). }
    intros x y Hx Hy. apply Hrnd; apply Bv; auto.
  - rewrite EP. eexists. reflexivity.
Qed.
End Pages.
End All.

(** The result of [mv_ss] for a nerve without triangles, given with at least three levels. *)
Theorem mv_total argsort rnd Dist max_r max_dim p IN n0 nerve : mv_input argsort Dist max_r max_dim p IN n0 nerve -> pure_nerve n0 nerve ->
  (forall x y, filtration_value Dist max_r x -> filtration_value Dist max_r y -> rnd x <= rnd y -> x <= y) -> (2 < length nerve)%nat -> (forall n, (2 <= n)%nat -> level n0 nerve n = []) ->
  (forall d k r c, (1 <= d < Z.to_nat max_dim)%nat -> (k < length (level n0 nerve 1))%nat -> r < max_r -> s_cycle p (length Dist) (rips_in Dist IN 1 k r) d c -> s_bounds p (length Dist) (rips_in Dist IN 1 k r) d c) ->
  exists S P Hs, mv_ss argsort rnd Dist max_r max_dim p IN n0 nerve = Ok (S, P, Hs).
Proof.
  intros HI HN Hrnd Hlen2 Htop Hdeg. assert (Hlen : (1 < length nerve)%nat) by lia. set (m := Z.to_nat max_dim) in *.
  destruct (zero_page_total argsort rnd Dist max_r max_dim p IN n0 nerve HI) as (S & EZ & PO).
  assert (Hm : (1 <= m)%nat) by (pose proof (mv_max_dim _ _ _ _ _ _ _ _ HI); unfold m; lia).
  assert (Hrow : forall d, (1 <= d < m)%nat -> row_bars n0 nerve S d 1 = []).
  { intros d Hd. apply (no_row_rips argsort rnd Dist max_r max_dim p IN n0 nerve HI S PO HN Hlen d 1); [unfold m in *; lia|lia|]. intros k r c Hk Hr0. apply Hdeg; auto. }
  assert (Hr : forall d, (d < m)%nat -> forall x y, local_end n0 nerve S d x -> local_end n0 nerve S d y -> rnd x <= rnd y -> x <= y).
  { intros d Hd x y Hx Hy. apply Hrnd; apply (end_value _ _ _ _ _ _ _ _ _ HI S PO d); auto. }
  pose proof (np_ge _ _ _ _ _ _ _ _ _ HI Hrnd Hlen Htop) as Hnp. unfold mv_ss. rewrite EZ. cbn [bind]. rewrite (po_rows _ _ _ _ _ _ _ _ _ _ PO). fold m.
  set (np := Z.to_nat (Z.min (max_dim + 2) (Z.of_nat (length nerve)))) in *.
  assert (Hov : forall d, (d < m)%nat -> classes n0 nerve S 1 d <> 0%nat -> classes n0 nerve S 0 d <> 0%nat).
  { intros [|d] Hd; [apply (over_points argsort rnd Dist max_r max_dim p IN n0 nerve HI S PO HN Hlen); exact Hm|]. intros X. elim X. rewrite classes_rb, Hrow by lia. reflexivity. }
  assert (Hcl : forall n d, (d < m)%nat -> classes n0 nerve S (Datatypes.S n) d <> 0%nat -> classes n0 nerve S n d <> 0%nat).
  { intros [|n] d Hd X; [apply Hov; auto|]. exfalso. apply X. unfold classes. rewrite Htop by lia. reflexivity. }
  assert (Hbs : forall n d, (n < length nerve)%nat -> (d < m)%nat -> (n = 0%nat \/ row_bars n0 nerve S d (Datatypes.S n) = []) \/
     exists b0, (forall x, In x (row_bars n0 nerve S d n) -> fst x = b0) /\ forall x, In x (row_bars n0 nerve S d (Datatypes.S n)) -> fst x = b0).
  { intros [|n] d _ _; [left; left; reflexivity|]. left. right. unfold row_bars. rewrite Htop by lia. reflexivity. }
  destruct (first_page_total argsort rnd Dist max_r max_dim p IN n0 nerve HI S PO HN Hlen Hr Hcl Hbs np (1 + length nerve) (init_pages np (1 + length nerve) m) Hnp ltac:(lia) (init_shape _ _ _)) as (P1 & E1 & SH1 & RG1). fold m in E1.
  rewrite E1. cbn [bind]. destruct (first_facts _ _ _ _ _ _ _ _ _ HI HN Hrnd Hlen Htop S P1 PO E1) as (First & FP & Thin). fold m in First, FP.
  pose proof (po_nerve _ _ _ _ _ _ _ _ _ _ PO) as EN.
  destruct (pages_total rnd S m np (1 + length nerve) ltac:(rewrite EN; unfold np; lia) ltac:(rewrite EN; lia) (np - 2) 2 P1 (le_n 2) ltac:(lia) SH1 FP Thin) as (P2 & E2 & SH2).
  { intros n d Hn Hd. destruct (First n d ltac:(lia) Hd) as (H & I & reps & X1 & _ & _ & X4 & X5). eapply gens_repinv; eauto. }
  rewrite E2. cbn [bind].
  destruct (pages_steps rnd S m ltac:(rewrite EN; exact Hlen) (np - 2) 2 P1 P2 (le_n 2) E2 FP Thin) as (A1 & A2 & A3).
  destruct (sh_hom _ _ _ _ SH2 (np - 1) 0 0 ltac:(lia) ltac:(lia) ltac:(lia)) as [H0 EH0]. rewrite EH0. cbn [bind].
  assert (TA : tables rnd Dist max_r max_dim p IN n0 nerve S P2).
  { constructor.
    - intros n d Hn Hd. destruct (First n d ltac:(lia) Hd) as (H & I & reps & X1 & X2 & X3 & X4 & X5). destruct (A1 1%nat n d ltac:(lia)) as (-> & -> & -> & ->). exists H, I, reps. auto.
    - intros k n d Hk Hn Hd. apply A3; auto. fold np in Hk. lia.
    - exact A2. }
  destruct (mapM_total (diagonal rnd S P2 np) (seq 1 (m - 1))) as (O & EO).
  - intros d Hd. apply in_seq in Hd. destruct d as [|d]; [lia|].
    destruct (diagonal_total argsort rnd Dist max_r max_dim p IN n0 nerve HI HN Hrnd Hlen2 Htop S PO Hrow P2 TA (1 + length nerve) (le_n _) SH2) with (d := d) as [o Eo].
    + intros n e Hn He. destruct (RG1 n e Hn He) as (H & I & X1 & X2 & X3 & X4). destruct (A1 1%nat n e ltac:(lia)) as (Y1 & Y2 & _). exists H, I. rewrite Y1, Y2. auto.
    + fold m. lia.
    + exists o. exact Eo.
  - rewrite EO. do 3 eexists. reflexivity.
Qed.
