(** * The extensions and diagonals of a spectral sequence in which only row 0 has classes *)
From Coq Require Import QArith.
From Verif Require Import Base ListX SortX Lin Gauss_model Gauss_arith Gauss_col Gauss_solve Gauss_bar Basis_model Basis_props PH_model PH_loop PH_lin PH_step PH_props Simp_model Spec_Simp Simp_lists Simp_diff Simp_props
  Spec_PH Spec_Rips Rips_bd Rips_chain Rips_props LC_model Spec_LC LC_props SS_model Spec_SS SS_inv SS_page SS_cech SS_glue SS_e2 SS_lift SS_zig SS_first SS_double SS_fplift
  IK_model IK_lin IK_abs IK_quot IK_mph MPH_props Spec_IK Spec_Bars Bars MPH_bars Bars_weak Bars_complex Spec_MV Spec_E2 Spec_Two Spec_Ext Ext_props Spec_Elder Ext_elder Blocks SS_rows Cover_model HP_model HP_table HP_row HP_gens HP_second HP_zero HP_pages HP_perm HP_two Two_col Two_fam HP_ext HP_diag
  Spec_Nerve Nerve_pages Nerve_tables Bars_ends.
From Coq Require Import Sorted Permutation Znumtheory.
Local Open Scope Z_scope.
Local Notation e0 := (LEntry [] LNil).

Section NerveExt.
Variables (argsort : list Z -> list nat) (rnd : Z -> Z) (Dist : list (list Z)) (max_r max_dim p : Z)
  (IN : list (list (list nat))) (n0 : nat) (nerve : list (list simplex)).
Hypothesis HI : mv_input argsort Dist max_r max_dim p IN n0 nerve.
Hypothesis HN : pure_nerve n0 nerve.
Hypothesis Hrnd : forall x y, filtration_value Dist max_r x -> filtration_value Dist max_r y -> rnd x <= rnd y -> x <= y.
Hypothesis Hlen : (1 < length nerve)%nat.
Variable S : ss.
Hypothesis PO : page_ok argsort rnd Dist max_r max_dim p IN n0 nerve S.
Variable P : pages.
Hypothesis NT : nerve_tables rnd Dist max_r max_dim p IN n0 nerve S P.
Local Notation np := (Z.to_nat (Z.min (max_dim + 2) (Z.of_nat (length nerve)))).
Let m := Z.to_nat max_dim.
Hypothesis Hnp : (2 <= np)%nat.
Let Hp := mv_prime _ _ _ _ _ _ _ _ HI.
Let lev n := level n0 nerve n.
Let p_pos : 0 < p. Proof. destruct Hp. lia. Qed.
Local Notation FB := (fam_bounds p Dist IN n0 nerve S).
Local Notation FZ := (fam_cycle p Dist IN n0 nerve S).
Local Notation PZ := (page2_cycle p Dist IN n0 nerve S).
Local Notation PB := (page2_bounds p Dist IN n0 nerve S).
Local Notation rb := (row_bars n0 nerve S).
Local Notation cmb := (fam_comb n0 nerve S).
Local Notation plev := (plev rnd Dist max_r p IN n0 nerve S).
Local Notation widths := (sizes IN n0 nerve S).
Let Hr d : (d < m)%nat -> forall x y, local_end n0 nerve S d x -> local_end n0 nerve S d y -> rnd x <= rnd y -> x <= y.
Proof. intros Hd x y Hx Hy. apply Hrnd; apply (end_value _ _ _ _ _ _ _ _ _ HI S PO d); auto. Qed.
Let FZs d n r : Spec_Bars.subspace p (FZ d n r). Proof. apply (fam_cycle_sub argsort Dist max_r max_dim p IN n0 nerve HI S). Qed.

(** ** The bars of row 0 *)
Lemma vsort_perm H : Permutation (b_bars H) (b_bars (vsort rnd H)).
Proof. unfold vsort. cbn [b_bars]. apply take_perm. apply sort_order_perm. Qed.

Lemma row_bars_at n : (n < length nerve)%nat -> (n < m)%nat -> exists H1, tget (h_hom P) 1 n 0 = Ok H1 /\ forall k, (1 <= k < np)%nat ->
  exists H, tget (h_hom P) k n 0 = Ok H /\ tget (h_dim P) (Datatypes.S k) n 0 = Ok (b_dim H) /\ b_dim H = length (b_bars H) /\ Permutation (b_bars H) (b_bars H1).
Proof.
  intros Hn Hm. destruct (nt_first _ _ _ _ _ _ _ _ _ _ NT n 0%nat Hn ltac:(fold m; lia)) as (H1 & I & reps & EH & _ & ED & _ & G). exists H1. split; [exact EH|].
  induction k as [|k IH]; intros Hk; [lia|]. destruct k as [|k].
  - exists H1. split; [exact EH|]. split; [exact ED|]. split; [apply (ge_dim _ _ _ _ _ _ _ _ _ _ _ _ G)|reflexivity].
  - destruct IH as (H & A1 & A2 & A3 & A4); [lia|]. set (K := Datatypes.S (Datatypes.S k)) in *.
    destruct (nt_step _ _ _ _ _ _ _ _ _ _ NT K n ltac:(unfold K; lia) Hn ltac:(fold m; lia)) as [Q1 Q2]. replace (K - 1)%nat with (Datatypes.S k) in * by (unfold K; lia).
    destruct (Nat.lt_ge_cases n K) as [L|L].
    + destruct (Q1 L) as (H2 & H' & I' & R' & F1 & F2 & F3 & F4 & F5 & F6 & F7 & F8). change (K - 1)%nat with (Datatypes.S k) in F1. rewrite A1 in F1. injection F1 as <-.
      destruct (Nat.eq_dec (b_dim H) 0) as [Z0|Z0].
      * destruct (F7 Z0) as [-> _]. exists H. auto.
      * destruct (F8 ltac:(lia)) as [-> _]. exists (vsort rnd H). split; [exact F2|]. split; [exact F5|]. split; [|transitivity (b_bars H); [symmetry; apply vsort_perm|exact A4]].
        rewrite <- (Permutation_length (vsort_perm H)), <- A3. reflexivity.
    + destruct (Q2 L) as (H2 & H' & F1 & F2 & F3 & F4 & F5 & _). rewrite A1 in F1. injection F1 as <-. exists H'. split; [exact F2|]. split; [exact F3|].
      destruct (Nat.eq_dec (b_dim H) 0) as [Z0|Z0].
      * destruct (F4 Z0) as [X Y]. rewrite X, Y. split; [reflexivity|]. assert (b_bars H = []) as E by (destruct (b_bars H); [reflexivity|cbn in A3; lia]). rewrite E in A4. exact A4.
      * rewrite (F5 ltac:(lia)). auto.
Qed.

(** ** The first block *)
Lemma block_elder n V I c B lf o gm : (n < length nerve)%nat -> (0 < m)%nat -> plev P n 0 (np - 1) V I -> (0 < b_dim V)%nat -> lev n <> [] ->
  good (widths n 0) c -> (forall k g, In g (le_ref (nth k c e0)) -> (g < b_dim V)%nat) ->
  (forall g x, (g < b_dim V)%nat -> fv c g x = if bdeath (b_bars V) g <? max_r then cmb 0 n (Spec_IK.column (b_coords V) g) x else 0) ->
  first_page_lift S n 0 c (map snd (b_bars V)) = Ok (B, lf) ->
  lift_to_page rnd S P n 0 np B (map (fun t => (t, max_r)) (map snd (b_bars V))) = Ok (o, gm) ->
  exists X, o = Some X /\ nrows X = b_dim V /\ ncols X = b_dim V /\ wf_mat X /\ elder p (b_bars V) X.
Proof.
  intros Hn Hd (T & J & reps & EH & _ & _ & ER & EB & ED & G & LI) Hpos Hlev Gc Rc F0 EL EO.
  replace (Datatypes.S (np - 1)) with np in LI by lia.
  pose proof (ge_wb _ _ _ _ _ _ _ _ _ _ _ _ G) as WB. pose proof (ge_dim _ _ _ _ _ _ _ _ _ _ _ _ G) as Ld. pose proof WB as (Bar0 & HQ & Hdead).
  set (R := map snd (b_bars V)) in *. assert (LR : length R = b_dim V) by (unfold R; rewrite map_length; auto).
  assert (NR : forall g, (g < b_dim V)%nat -> nth g R 0 = bdeath (b_bars V) g) by (intros g Hg; unfold R; rewrite (nth_map snd (b_bars V) g (0, 0)) by lia; reflexivity).
  assert (Bar : forall g, (g < b_dim V)%nat -> bbirth (b_bars V) g < bdeath (b_bars V) g <= max_r).
  { intros g Hg. apply (Bar0 (nth g (b_bars V) (0, 0))). apply nth_In. lia. }
  assert (F1 : forall g, (g < b_dim V)%nat -> FZ 0 n (bdeath (b_bars V) g) (fv c g)).
  { intros g Hg. specialize (Bar g Hg). destruct (Z.ltb_spec (bdeath (b_bars V) g) max_r) as [L|L].
    - apply (sub_ext p _ (cmb 0 n (Spec_IK.column (b_coords V) g))); [apply FZs|intros x; rewrite F0 by auto; apply Z.ltb_lt in L; rewrite L; reflexivity|].
      apply (fam_cycle_mono Dist p IN n0 nerve S 0 n (bbirth (b_bars V) g)); [lia|]. destruct (HQ (bbirth (b_bars V) g) ltac:(lia)) as (HQ1 & _). apply (HQ1 g); lia.
    - apply (subs_zero p Hp); [apply FZs|]. intros x. rewrite F0 by auto. apply Z.ltb_ge in L. rewrite L. reflexivity. }
  destruct (flift _ _ _ _ _ _ _ _ _ HI S PO Hlen np Hnp n 0 c R Hn Hd Gc) as (B' & lf' & EL' & NB & CB & WfB & RB & GL & RL & HB); auto.
  { rewrite LR. exact Rc. }
  { rewrite LR. intros g Hg. rewrite NR by auto. destruct (Z.ltb_spec (bdeath (b_bars V) g) max_r) as [L|L]; [left; exact L|right]. intros x. rewrite F0 by auto. apply Z.ltb_ge in L. rewrite L. reflexivity. }
  { rewrite LR. intros g Hg. rewrite NR by auto. apply F1. exact Hg. }
  rewrite EL in EL'. injection EL' as <- <-. rewrite LR in NB, RL, HB.
  destruct (LI B R o gm ltac:(rewrite LR; exact NB) CB WfB EO) as [(Z0 & _)|(_ & X0 & G0 & Y0 & -> & -> & NX & CX & WX & MY & HX)]; [lia|].
  rewrite LR in CX, HX. exists X0. split; [reflexivity|]. split; [exact NX|]. split; [exact CX|]. split; [exact WX|].
  intros i j Hi Hj Hne. rewrite <- Ld in Hi, Hj. destruct (HX j Hj) as (Rg & Al & AlY & Rel). rewrite NR in Al, AlY, Rel by auto. pose proof (Bar j Hj) as Bj.
  destruct (Z_lt_ge_dec (bdeath (b_bars V) j) max_r) as [L|L].
  - destruct (HB j Hj) as (W1 & W2 & W3 & _). rewrite NR in W1, W2 by auto.
    pose proof (lift_rel2 _ _ _ _ _ _ _ _ _ HI S PO HN Hlen np Hnp 0 n V I reps (bdeath (b_bars V) j) (fv c j) (fv lf j) (get B j) (fun k => get X0 k j) (fun k => get Y0 k j) Hd L G W1 W3 W2 Al AlY Rel) as F.
    pose proof (page2_bounds_sub _ _ _ _ _ _ _ _ HI S 0 n (bdeath (b_bars V) j) Hd) as Su.
    destruct (Hdead j ltac:(lia) L) as (cc & C1 & C2).
    destruct (HQ _ L) as (_ & _ & HQ3). pose (dd := fun k => if Nat.ltb k (b_dim V) then get X0 k j - cc k else 0).
    assert (M0 : dd i mod p = 0).
    { apply (HQ3 dd); [| |lia].
      - intros t Ht. unfold dd. destruct (Nat.ltb_spec t (b_dim V)) as [Lk|Lk]; [|reflexivity].
        destruct (Z.eq_dec (get X0 t j) 0) as [E|Hx]; [|elim Ht; apply (Al t Lk Hx)]. destruct (Z.eq_dec (cc t) 0) as [E'|Hc]; [lia|]. elim Ht. destruct (C1 t Hc) as (_ & C1' & C1''). lia.
      - refine (sub_ext p _ _ _ Su _ (subs_sub p _ _ _ Su C2 F)). intros x. cbv beta. rewrite <- Ld.
        assert (E : fv c j x = cmb 0 n (Spec_IK.column (b_coords V) j) x) by (rewrite F0 by auto; apply Z.ltb_lt in L; rewrite L; reflexivity). rewrite E.
        rewrite (Zsum_ext _ (fun k => dd k * _) (fun k => get X0 k j * cmb 0 n (Spec_IK.column (b_coords V) k) x - cc k * cmb 0 n (Spec_IK.column (b_coords V) k) x)); [rewrite Zsum_sub; ring|].
        intros t Ht. unfold dd. apply Nat.ltb_lt in Ht. rewrite Ht. ring. }
    unfold dd in M0. replace (Nat.ltb i (b_dim V)) with true in M0 by (symmetry; apply Nat.ltb_lt; lia).
    destruct (Z.eq_dec (cc i) 0) as [E|E]; [exfalso; apply Hne; rewrite E, Z.sub_0_r in M0; exact M0|]. destruct (C1 i E) as (_ & A & A'). auto.
  - exfalso. assert (E : get X0 i j <> 0) by (intros E; apply Hne; rewrite E; apply Zmod_0_l). destruct (Al i Hi E) as [_ [_ A]]. specialize (Bar i Hi). unfold bdeath in *. lia.
Qed.

(** ** The blocks of an extension *)
Lemma calm_lift n d tp B R o gm : (0 < d)%nat -> (2 <= tp)%nat -> lift_to_page rnd S P n d tp B R = Ok (o, gm) -> o = None.
Proof.
  intros Hd Ht E. unfold lift_to_page in E. replace (tp - 1)%nat with (Datatypes.S (tp - 2)) in E by lia. cbn [seq lift_loop] in E.
  destruct (tget (h_im P) 1 n d) as [J|]; [|discriminate]. cbn [bind] in E. destruct (tget (h_hom P) 1 n d) as [H|] eqn:EH; [|discriminate]. cbn [bind] in E.
  destruct (nt_calm _ _ _ _ _ _ _ _ _ _ NT 1%nat ltac:(lia) n d Hd) as [X _]. rewrite (proj1 (X H EH)) in E. cbn in E. injection E as <- _. reflexivity.
Qed.

Lemma ext_blocks n H exts : tget (h_hom P) (np - 1) n 0 = Ok H -> extension rnd S P np n 0 = Ok exts ->
  (exts = [] /\ exists reps0, tget (h_reps P) (np - 1) n 0 = Ok reps0 /\ copy_seq reps0 = Ok []) \/ exists o rest, exts = o :: rest /\ (forall A, In (Some A) rest -> nrows A = 0%nat) /\
    ((forall x, In x (b_bars H) -> max_r <= snd x) /\ o = Some (mzero (b_dim H) (length (b_bars H))) \/
     ((exists x, In x (b_bars H) /\ snd x < max_r) /\ exists reps0 c cs c' B lf gm, tget (h_reps P) (np - 1) n 0 = Ok reps0 /\ copy_seq reps0 = Ok (c :: cs) /\ zero_out (map (fun t => t <? max_r) (map snd (b_bars H))) c = Ok c' /\
       first_page_lift S n 0 c' (map snd (b_bars H)) = Ok (B, lf) /\ lift_to_page rnd S P n 0 np B (map (fun t => (t, max_r)) (map snd (b_bars H))) = Ok (o, gm))).
Proof.
  intros EH E. unfold extension in E. rewrite EH in E. cbn [bind] in E. unfold death_radii in E. destruct (b_flat H); [discriminate|]. cbn [bind] in E.
  destruct (tget (h_reps P) (np - 1) n 0) as [reps0|] eqn:ER; [|discriminate]. cbn [bind] in E. destruct (copy_seq reps0) as [reps|] eqn:EC; [|discriminate]. cbn [bind] in E.
  rewrite (po_max_r _ _ _ _ _ _ _ _ _ _ PO) in E. set (R := map snd (b_bars H)) in *.
  destruct (mapM _ (seq 0 (length reps))) as [zs|] eqn:EZ; [|discriminate]. cbn [bind] in E.
  destruct reps as [|c cs].
  { left. split; [|exists reps0; auto]. cbn in EZ. injection EZ as <-. destruct (existsb _ _); [|injection E as <-; reflexivity]. cbn in E. injection E as <-. reflexivity. }
  right. cbn [length seq] in EZ, E. destruct (existsb (fun b => b) (map (fun t => t <? max_r) R)) eqn:Ex.
  - destruct (mapM _ (c :: cs)) as [reps1|] eqn:EM; [|discriminate]. cbn [bind] in E. cbn [mapM] in EM. destruct (zero_out _ c) as [c'|] eqn:Ezo; [|discriminate]. cbn [bind] in EM. destruct (mapM _ cs) as [cs'|] eqn:Ecs; [|discriminate]. cbn [bind] in EM. injection EM as <-.
    destruct (foldM _ _ _) as [[repsF extsF]|] eqn:EF; [|discriminate]. cbn [bind] in E. injection E as <-. cbn [foldM] in EF.
    destruct (extension_step rnd S P np n 0 R _ (c' :: cs', []) 0) as [[repsA extsA]|] eqn:ES; [|discriminate]. cbn [bind] in EF.
    unfold extension_step in ES. rewrite Nat.sub_0_r, Nat.add_0_r in ES. change (nth_err (c' :: cs') 0) with (Ok c') in ES. cbn [bind] in ES.
    destruct (first_page_lift S n 0 c' R) as [[B lf]|] eqn:EL; [|discriminate]. cbn [bind] in ES.
    destruct (lift_to_page rnd S P n 0 np B _) as [[o gm]|] eqn:EO; [|discriminate]. cbn [bind] in ES. rewrite ER in ES. cbn [bind] in ES.
    assert (EA : extsA = [o]).
    { destruct (reduce_betas _ _ _ _ _) as [r1|]; [|discriminate]. cbn [bind] in ES. destruct (nth_err r1 0) as [c1|]; [|discriminate]. cbn [bind] in ES.
      destruct (foldM _ _ c1) as [c2|]; [|discriminate]. cbn [bind] in ES. destruct (first_page_lift S n 0 c2 R) as [[B2 lf2]|]; [|discriminate]. cbn [bind] in ES. destruct (many B2); [discriminate|].
      match type of ES with bind ?x _ = _ => destruct x; [|discriminate] end. cbn [bind app] in ES. injection ES as _ <-. reflexivity. }
    subst extsA. clear ES.
    assert (Inv : exists rest, extsF = o :: rest /\ forall A, ~ In (Some A) rest).
    { refine (foldM_inv _ (fun st : list chains * list (option mat) => exists rest, snd st = o :: rest /\ forall A, ~ In (Some A) rest) _ _ _ _ _ EF); [|exists []; split; [reflexivity|intros A []]].
      intros [rs ex] idx [rs' ex'] Hi (rest & E1 & E2) ES. cbn [snd] in *. apply in_seq in Hi. unfold extension_step in ES.
      destruct (nth_err rs idx) as [a|]; [|discriminate]. cbn [bind] in ES. destruct (first_page_lift S (n - idx) (0 + idx) a R) as [[B1 lf1]|]; [|discriminate]. cbn [bind] in ES.
      destruct (lift_to_page rnd S P (n - idx) (0 + idx) np B1 _) as [[o1 gm1]|] eqn:EO1; [|discriminate]. cbn [bind] in ES. apply calm_lift in EO1; [|lia|exact Hnp]. subst o1.
      destruct (tget (h_reps P) (np - 1) (n - idx) (0 + idx)) as [sr|]; [|discriminate]. cbn [bind] in ES.
      destruct (reduce_betas _ _ _ _ _) as [r1|]; [|discriminate]. cbn [bind] in ES. destruct (nth_err r1 idx) as [c1|]; [|discriminate]. cbn [bind] in ES.
      destruct (foldM _ _ c1) as [c2|]; [|discriminate]. cbn [bind] in ES. destruct (first_page_lift _ _ _ c2 R) as [[B2 lf2]|]; [|discriminate]. cbn [bind] in ES. destruct (many B2); [discriminate|].
      match type of ES with bind ?x _ = _ => destruct x; [|discriminate] end. cbn [bind] in ES. injection ES as _ <-. exists (rest ++ [None]). rewrite E1. split; [reflexivity|].
      intros A HA. apply in_app_or in HA. destruct HA as [HA|[HA|[]]]; [apply (E2 A HA)|discriminate]. }
    destruct Inv as (rest & -> & Hrest). exists o, rest. split; [reflexivity|]. split; [intros A HA; elim (Hrest A HA)|]. right. split.
    + apply existsb_exists in Ex. destruct Ex as (b & Hb & ->). apply in_map_iff in Hb. destruct Hb as (t & Ht & Hin). apply Z.ltb_lt in Ht. unfold R in Hin. apply in_map_iff in Hin. destruct Hin as (x & <- & Hx). exists x. auto.
    + exists reps0, c, cs, c', B, lf, gm. do 4 (split; [first [assumption|reflexivity]|]). first [assumption|reflexivity].
  - injection E as <-. cbn [mapM] in EZ. rewrite Nat.sub_0_r, Nat.add_0_r, EH in EZ. cbn [bind] in EZ. destruct (mapM _ (seq 1 (length cs))) as [zs'|] eqn:EZ'; [|discriminate]. cbn [bind] in EZ. injection EZ as <-.
    do 2 eexists. split; [reflexivity|]. split.
    + intros A HA. apply (In_nth _ _ None) in HA. destruct HA as (k & Hk & EA). destruct (mapM_Ok _ _ _ EZ') as [Lz Hz]. specialize (Hz k 0%nat None ltac:(lia)). rewrite EA in Hz. rewrite seq_length in Lz. rewrite seq_nth in Hz by lia.
      destruct (tget (h_hom P) (np - 1) (n - (1 + k)) (0 + (1 + k))) as [hS|] eqn:ES; [|discriminate]. cbn [bind] in Hz. injection Hz as <-. cbn [mzero nrows].
      apply (proj1 (nt_calm _ _ _ _ _ _ _ _ _ _ NT (np - 1)%nat ltac:(lia) (n - (1 + k))%nat (0 + (1 + k))%nat ltac:(lia)) hS ES).
    + left. split; [|unfold R; rewrite map_length; reflexivity]. intros x Hx. destruct (Z_lt_ge_dec (snd x) max_r) as [L|L]; [exfalso|lia].
      assert (X : existsb (fun b => b) (map (fun t => t <? max_r) R) = true); [|congruence]. apply existsb_exists. exists true. split; [|reflexivity]. apply in_map_iff. exists (snd x).
      split; [apply Z.ltb_lt; exact L|]. unfold R. apply in_map. exact Hx.
Qed.

(** The first block continues bars by older, longer-living ones. *)
Definition elder_block (n : nat) : Prop := forall H exts o rest A, tget (h_hom P) (np - 1) n 0 = Ok H -> (0 < b_dim H)%nat ->
  extension rnd S P np n 0 = Ok exts -> exts = o :: rest -> o = Some A -> elder p (b_bars H) A.

Lemma zero_elder bars a b : elder p bars (mzero a b).
Proof. intros i k _ _ H. elim H. rewrite mzero_get. apply Zmod_0_l. Qed.

Lemma elder_one : (1 < m)%nat -> elder_block 1.
Proof.
  intros Hm H exts o rest A EH Hpos EX -> ->.
  destruct (nt_first _ _ _ _ _ _ _ _ _ _ NT 1%nat 0%nat Hlen ltac:(fold m; lia)) as (H1 & I & reps & EH1 & EI1 & ED1 & ER1 & G1).
  assert (LV : forall k, (1 <= k < np)%nat -> exists V, plev P 1 0 k V I).
  { intros k. induction k as [|k IH]; [lia|]. intros Hk. destruct k as [|k].
    - exists H1. apply (plev_first argsort rnd Dist max_r max_dim p IN n0 nerve HI S PO HN Hlen np Hnp Hr P 1 0 H1 I reps); auto. fold m. lia.
    - destruct IH as (V & PV); [lia|].
      destruct (plev_step argsort rnd Dist max_r max_dim p IN n0 nerve HI S PO Hlen np Hnp Hr P 1 0 (Datatypes.S (Datatypes.S k)) V I ltac:(fold m; lia) ltac:(lia)) as (V' & PV' & _).
      + replace (Datatypes.S (Datatypes.S k) - 1)%nat with (Datatypes.S k) by lia. exact PV.
      + apply (proj1 (nt_step _ _ _ _ _ _ _ _ _ _ NT (Datatypes.S (Datatypes.S k)) 1%nat ltac:(lia) Hlen ltac:(fold m; lia))). lia.
      + exists V'. exact PV'. }
  destruct (LV (np - 1)%nat ltac:(lia)) as (V & PV). pose proof PV as (T & J & rps & ET & _ & _ & ER & EB & ED & G & _). rewrite EH in ET. injection ET as <-.
  destruct (ext_blocks 1 H _ EH EX) as [[X _]|(o & rs & X & _ & Y)]; [discriminate|]. injection X as <- <-. destruct Y as [[_ Y]|[_ Y]]; [injection Y as ->; apply zero_elder|].
  destruct Y as (reps0 & c & cs & c' & B & lf & gm & A1 & A2 & A3 & A4 & A5). rewrite ER in A1. injection A1 as <-. rewrite EB in *.
  destruct (reps_one _ _ _ _ _ _ _ _ HI S 0 V I rps) as (rep & lift & -> & Gr & Gl & Rr & Rl & Hrep); [fold m; lia|lia|exact G|].
  rewrite (copy_seq_ok [widths 1 0; widths 0 1] [rep; lift]) in A2 by (constructor; [exact Gr|constructor; [exact Gl|constructor]]). injection A2 as <- <-.
  pose proof (ge_dim _ _ _ _ _ _ _ _ _ _ _ _ G) as Ld. set (eb := map (fun t => t <? max_r) (map snd (b_bars V))) in *.
  assert (Leb : length eb = b_dim V) by (unfold eb; rewrite !map_length; auto).
  destruct (zero_out_ok (widths 1 0) eb rep Gr) as (rep' & Er & Gr' & Rr' & Vr'); [rewrite Leb; exact Rr|]. rewrite A3 in Er. injection Er as <-. rewrite Leb in Rr'.
  assert (Lev1 : lev 1 <> []).
  { intros Z0. pose proof (proj1 (proj2 (ge_wb _ _ _ _ _ _ _ _ _ _ _ _ G))) as HQ. pose proof (proj1 (ge_wb _ _ _ _ _ _ _ _ _ _ _ _ G) (nth 0 (b_bars V) (0, 0)) ltac:(apply nth_In; lia)) as Bar.
    destruct (HQ (bbirth (b_bars V) 0) ltac:(unfold bbirth; lia)) as (_ & _ & HQ3).
    assert (X : 1 mod p = 0); [|rewrite Z.mod_1_l in X by (apply prime_ge_2 in Hp; lia); discriminate].
    apply (HQ3 (fun k => if Nat.eqb k 0 then 1 else 0)) with (k := 0%nat); [| |lia].
    - intros [|k] Hk; [exfalso; apply Hk; unfold bbirth, bdeath; lia|reflexivity].
    - apply (subs_zero p Hp); [apply (page2_bounds_sub _ _ _ _ _ _ _ _ HI S 0 1 _ ltac:(fold m; lia))|]. intros x. apply cong_eq. apply Zsum_0. intros k Hk.
      replace (cmb 0 1 _ x) with 0; [ring|]. unfold fam_comb. unfold row_bars. fold (lev 1). rewrite Z0. reflexivity. }
  destruct (block_elder 1 V I c' B lf (Some A) gm) as (X & EX' & _ & _ & _ & HE); auto; try lia.
  - intros g x Hg. unfold fv. rewrite Vr'. unfold eb at 1. rewrite map_map. rewrite (nth_map (fun x : bar => snd x <? max_r) (b_bars V) g (0, 0)) by lia.
    change (snd (nth g (b_bars V) (0, 0))) with (bdeath (b_bars V) g). destruct (_ <? _); [|reflexivity]. apply (proj1 (Hrep g Hg)).
  - injection EX' as ->. exact HE.
Qed.

(** ** The diagonals *)
Hypothesis HA : acyclic_cover p Dist max_r max_dim IN n0 nerve.

Lemma page_dim_calm n d x : (0 < d < m)%nat -> (n < length nerve)%nat -> page_dim S P (np - 1) n d = Ok x -> x = 0%nat.
Proof.
  intros Hd Hn E. unfold page_dim in E. destruct (Nat.eqb_spec (np - 1) 1) as [E1|E1].
  - rewrite (page_dim_rb _ _ _ _ _ _ _ _ _ HI S PO n d Hn ltac:(fold m; lia)) in E. rewrite (acyclic_rows _ _ _ _ _ _ _ _ _ HI HN Hrnd Hlen S d n PO HA ltac:(fold m; lia)) in E. injection E as <-. reflexivity.
  - pose proof (proj2 (nt_calm _ _ _ _ _ _ _ _ _ _ NT (np - 2)%nat ltac:(lia) n d ltac:(lia)) x) as X. replace (Datatypes.S (np - 2)) with (np - 1)%nat in X by lia. apply X. exact E.
Qed.

Lemma nth_err_zeros n N i : nth_err (repeat 0%nat n ++ [N]) i = if Nat.ltb i n then Ok 0%nat else if Nat.eqb i n then Ok N else Err IndexError.
Proof.
  unfold nth_err. revert i. induction n as [|n IH]; intros [|i]; cbn [repeat app nth_error]; [reflexivity|destruct i; reflexivity|reflexivity|]. rewrite IH. reflexivity.
Qed.

Lemma extension_matrix_row n H E : (1 <= n < m)%nat -> (n < length nerve)%nat -> elder_block n -> tget (h_hom P) (np - 1) n 0 = Ok H -> (0 < b_dim H)%nat ->
  extension_matrix rnd S P np n (repeat 0%nat (Datatypes.S n) ++ [b_dim H]) = Ok E ->
  nrows E = b_dim H /\ ncols E = b_dim H /\ wf_mat E /\ (b_dim H = length (b_bars H) -> elder p (b_bars H) E).
Proof.
  intros Hn HL HB EH Hpos E1. unfold extension_matrix in E1. rewrite (po_nerve _ _ _ _ _ _ _ _ _ _ PO) in E1. rewrite last_last in E1. set (N := b_dim H) in *.
  replace (Nat.min (n + 1) (1 + length nerve) - 1)%nat with n in E1 by lia. set (step := fun (M : mat) (n' : nat) => _) in E1.
  assert (S1 : forall l M M', (forall i, In i l -> (1 <= i < n)%nat) -> foldM step l M = Ok M' -> M' = M).
  { induction l as [|i l IH]; intros M M' Hl Es; cbn [foldM] in Es; [injection Es as <-; reflexivity|]. destruct (step M i) as [M1|] eqn:E3; [|discriminate]. cbn [bind] in Es.
    assert (M1 = M) as ->; [|apply IH; [intros i' Hi'; apply Hl; right; exact Hi'|exact Es]]. unfold step in E3. destruct (page_dim S P (np - 1) i (n - i)) as [x|] eqn:Ex; [|discriminate]. cbn [bind] in E3.
    pose proof (Hl i (or_introl eq_refl)). apply page_dim_calm in Ex; [|lia|lia]. subst x. injection E3 as <-. reflexivity. }
  assert (In1 : In n (seq 1 n)) by (apply in_seq; lia). destruct (foldM_split _ _ _ _ n In1 E1) as (l1 & l2 & s1 & s2 & El & F1 & F2 & F3).
  assert (Hl : l1 = seq 1 (n - 1) /\ l2 = []).
  { assert (ND : NoDup (l1 ++ n :: l2)) by (rewrite <- El; apply seq_NoDup). replace n with (Datatypes.S (n - 1)) in El at 1 by lia. rewrite seq_S in El. replace (1 + (n - 1))%nat with n in El by lia.
    destruct (exists_last (l := n :: l2)) as (l3 & y & E3); [discriminate|]. rewrite E3, app_assoc in El. apply app_inj_tail in El. destruct El as [El <-]. destruct l3 as [|z l3].
    - cbn in E3. injection E3 as ->. rewrite app_nil_r in El. auto.
    - exfalso. cbn in E3. injection E3 as -> E3. rewrite E3 in ND. apply NoDup_remove_2 in ND. apply ND. apply in_or_app. right. apply in_or_app. right. left. reflexivity. }
  destruct Hl as [-> ->]. apply S1 in F1; [|intros i Hi; apply in_seq in Hi; lia]. subst s1. cbn [foldM] in F3. injection F3 as ->. clear E1 El S1. unfold step in F2. clear step. rewrite Nat.sub_diag in F2.
  destruct (page_dim S P (np - 1) n 0) as [x|]; [|discriminate]. cbn [bind] in F2.
  assert (F0 : nrows (mzero N N) = N /\ ncols (mzero N N) = N /\ wf_mat (mzero N N) /\ (N = length (b_bars H) -> elder p (b_bars H) (mzero N N))).
  { split; [reflexivity|]. split; [apply mzero_ncols|]. split; [apply mzero_wf|]. intros _. apply zero_elder. }
  destruct (Nat.ltb 0 x); [|injection F2 as <-; exact F0].
  destruct (extension rnd S P np n 0) as [exts|] eqn:EX; [|discriminate]. cbn [bind] in F2.
  rewrite !nth_err_zeros in F2. replace (Nat.ltb n (Datatypes.S n)) with true in F2 by (symmetry; apply Nat.ltb_lt; lia). cbn [bind] in F2.
  replace (n + 1)%nat with (Datatypes.S n) in F2 by lia. rewrite Nat.ltb_irrefl, Nat.eqb_refl in F2. cbn [bind] in F2.
  destruct (ext_blocks n H exts EH EX) as [[-> _]|(o & rest & Eo & Hrest & _)]; [cbn in F2; injection F2 as <-; exact F0|].
  rewrite Eo in F2. unfold enum in F2. cbn [length seq combine foldM fst snd] in F2. rewrite Nat.sub_0_r in F2. rewrite Nat.sub_0_r in F2.
  match type of F2 with bind ?x _ = _ => destruct x as [M1|] eqn:EM1; [|discriminate] end. cbn [bind] in F2.
  assert (M1 = E) as ->.
  { assert (X : E = M1); [|auto]. refine (foldM_inv _ (fun M => M = M1) _ _ _ _ eq_refl F2). intros M [i b] M' Hib -> EM. cbn [snd] in EM. apply in_combine_r in Hib.
    destruct b as [blk|]; [|injection EM as <-; reflexivity]. rewrite (Hrest blk Hib) in EM. cbn in EM. injection EM as <-. reflexivity. }
  clear F2. destruct o as [A|]; [|injection EM1 as <-; exact F0]. destruct (Nat.ltb_spec 0 (nrows A)) as [LA|LA]; [|injection EM1 as <-; exact F0].
  rewrite !nth_err_zeros in EM1. replace (Nat.ltb n (Datatypes.S n)) with true in EM1 by (symmetry; apply Nat.ltb_lt; lia). rewrite Nat.ltb_irrefl, Nat.eqb_refl in EM1. cbn [bind] in EM1.
  destruct F0 as (B1 & B2 & B3 & _). destruct (set_block_get _ _ _ _ _ _ _ B3 EM1) as (C1 & C2 & C3 & C4). rewrite C1, C2. split; [exact B1|]. split; [exact B2|]. split; [exact C3|].
  intros Eb i k Hi Hk. rewrite C4 by lia. replace (Nat.leb 0 i && Nat.ltb i N) with true by (symmetry; apply andb_true_iff; split; [apply Nat.leb_le|apply Nat.ltb_lt]; lia).
  replace (Nat.leb 0 k && Nat.ltb k N) with true by (symmetry; apply andb_true_iff; split; [apply Nat.leb_le|apply Nat.ltb_lt]; lia). cbn [andb]. rewrite !Nat.sub_0_r.
  apply (HB H exts (Some A) rest A EH Hpos EX Eo eq_refl i k Hi Hk).
Qed.

Lemma cumulate_zeros l N : (forall x, In x l -> x = 0%nat) -> cumulate 0 (l ++ [N]) = repeat 0%nat (length l) ++ [N].
Proof.
  intros H. induction l as [|x l IH]; [reflexivity|]. cbn [app cumulate length repeat]. rewrite (H x (or_introl eq_refl)). cbn [Nat.add]. f_equal. apply IH. intros y Hy. apply H. right. exact Hy.
Qed.
Lemma cumulate_zeros' l : (forall x, In x l -> x = 0%nat) -> cumulate 0 l = repeat 0%nat (length l).
Proof.
  intros H. induction l as [|x l IH]; [reflexivity|]. cbn [cumulate length repeat]. rewrite (H x (or_introl eq_refl)). cbn [Nat.add]. f_equal. apply IH. intros y Hy. apply H. right. exact Hy.
Qed.
Lemma last_zeros n : last (repeat 0%nat n) 0%nat = 0%nat.
Proof. induction n as [|n IH]; [reflexivity|]. cbn [repeat last]. destruct (repeat 0%nat n); [reflexivity|exact IH]. Qed.

Lemma mapM_app {X Y} (f : X -> res Y) l1 l2 r : mapM f (l1 ++ l2) = Ok r -> exists r1 r2, mapM f l1 = Ok r1 /\ mapM f l2 = Ok r2 /\ r = r1 ++ r2.
Proof.
  revert r. induction l1 as [|x l1 IH]; intros r E; [exists [], r; auto|]. cbn [app mapM] in E. destruct (f x) as [y|] eqn:Ey; [|discriminate]. cbn [bind] in E.
  destruct (mapM f (l1 ++ l2)) as [ys|] eqn:Em; [|discriminate]. cbn [bind] in E. injection E as <-. destruct (IH ys eq_refl) as (r1 & r2 & A & B & ->). exists (y :: r1), r2. cbn [mapM]. rewrite Ey. cbn [bind]. rewrite A. auto.
Qed.

Lemma dims_row n H dims : (1 <= n < m)%nat -> (n < length nerve)%nat -> tget (h_dim P) np n 0 = Ok (b_dim H) -> diagonal_dims P np n (1 + length nerve) = Ok dims ->
  dims = repeat 0%nat (Datatypes.S n) ++ [b_dim H].
Proof.
  intros Hn HL ED Ed. assert (Emin : Nat.min (n + 1) (1 + length nerve) = Datatypes.S n) by lia.
  unfold diagonal_dims in Ed. rewrite Emin in Ed. destruct (mapM _ (seq 0 (Datatypes.S n))) as [ds|] eqn:Em; [|discriminate]. cbn [bind] in Ed. injection Ed as <-. rewrite seq_S in Em. apply mapM_app in Em. destruct Em as (d1 & d2 & E1 & E2 & ->).
    cbn [Nat.add mapM] in E2. rewrite Nat.sub_diag, ED in E2. cbn [bind] in E2. injection E2 as <-. destruct (mapM_Ok _ _ _ E1) as [L1 Hd1]. rewrite seq_length in L1. rewrite cumulate_zeros; [rewrite L1; reflexivity|].
    intros x Hx. apply (In_nth _ _ 0%nat) in Hx. destruct Hx as (k & Hk & <-). specialize (Hd1 k 0%nat 0%nat ltac:(rewrite seq_length; lia)). rewrite seq_nth in Hd1 by lia.
    pose proof (proj2 (nt_calm _ _ _ _ _ _ _ _ _ _ NT (np - 1)%nat ltac:(lia) (0 + k)%nat (n - (0 + k))%nat ltac:(lia))) as X. replace (Datatypes.S (np - 1)) with np in X by lia. apply X. exact Hd1.
Qed.

(** A diagonal with classes asks for the extension at its place in row 0. *)
Lemma diagonal_extension n H H' o : (1 <= n < m)%nat -> (n < length nerve)%nat -> (3 <= np)%nat -> tget (h_dim P) np n 0 = Ok (b_dim H) -> (0 < b_dim H)%nat ->
  tget (h_dim P) (np - 1) n 0 = Ok (b_dim H') -> (0 < b_dim H')%nat -> diagonal rnd S P np n = Ok o -> exists exts, extension rnd S P np n 0 = Ok exts.
Proof.
  intros Hn HL Hnp3 ED Hpos ED' Hpos' E. unfold diagonal in E. rewrite (po_nerve _ _ _ _ _ _ _ _ _ _ PO) in E. destruct (diagonal_dims P np n (1 + length nerve)) as [dims|] eqn:Ed; [|discriminate]. cbn [bind] in E.
  rewrite (dims_row n H dims Hn HL ED Ed), last_last in E. apply Nat.ltb_lt in Hpos. rewrite Hpos in E. destruct (extension_matrix rnd S P np n _) as [E1|] eqn:EE; [|discriminate]. clear E.
  unfold extension_matrix in EE. rewrite (po_nerve _ _ _ _ _ _ _ _ _ _ PO) in EE. rewrite last_last in EE. replace (Nat.min (n + 1) (1 + length nerve) - 1)%nat with n in EE by lia.
  assert (In1 : In n (seq 1 n)) by (apply in_seq; lia). destruct (foldM_split _ _ _ _ n In1 EE) as (l1 & l2 & s1 & s2 & _ & _ & F2 & _). rewrite Nat.sub_diag in F2.
  unfold page_dim in F2. destruct (Nat.eqb_spec (np - 1) 1) as [X|_]; [lia|]. rewrite ED' in F2. cbn [bind] in F2. apply Nat.ltb_lt in Hpos'. rewrite Hpos' in F2.
  destruct (extension rnd S P np n 0) as [exts|]; [exists exts; reflexivity|discriminate].
Qed.

Theorem diagonal_row n o : (1 <= n < m)%nat -> (n < length nerve)%nat -> elder_block n ->
  (forall H, tget (h_hom P) 1 n 0 = Ok H -> rips_barcode p Dist max_r n (b_bars H)) ->
  diagonal rnd S P np n = Ok o -> rips_barcode p Dist max_r n (match o with Some b => b_bars b | None => [] end).
Proof.
  intros Hn HL HB HR E. destruct (row_bars_at n HL ltac:(lia)) as (H1 & EH1 & HK). destruct (HK (np - 1)%nat ltac:(lia)) as (H & EH & ED & Ld & Pm). replace (Datatypes.S (np - 1)) with np in ED by lia.
  assert (RH : rips_barcode p Dist max_r n (b_bars H)) by (apply (barcode_perm p _ _ max_r (b_bars H1)); [symmetry; exact Pm|apply HR; exact EH1]).
  unfold diagonal in E. rewrite (po_nerve _ _ _ _ _ _ _ _ _ _ PO) in E. destruct (diagonal_dims P np n (1 + length nerve)) as [dims|] eqn:Ed; [|discriminate]. cbn [bind] in E.
  assert (Emin : Nat.min (n + 1) (1 + length nerve) = Datatypes.S n) by lia.
  assert (Edims : dims = repeat 0%nat (Datatypes.S n) ++ [b_dim H]) by (apply (dims_row n H dims Hn HL ED Ed)).
  rewrite Edims, last_last in E. destruct (Nat.ltb_spec 0 (b_dim H)) as [Hpos|Hz].
  2:{ injection E as <-. assert (b_bars H = []) as Eb by (destruct (b_bars H); [reflexivity|cbn in Ld; lia]). rewrite Eb in RH. exact RH. }
  destruct (extension_matrix rnd S P np n _) as [E1|] eqn:EE; [|discriminate]. cbn [bind] in E. rewrite Emin in E.
  destruct (mapM _ (seq 0 (Datatypes.S n))) as [bl|] eqn:Ebl; [|discriminate]. cbn [bind] in E.
  assert (Cbl : concat bl = b_bars H).
  { rewrite seq_S in Ebl. apply mapM_app in Ebl. destruct Ebl as (b1 & b2 & E2 & E3 & ->). cbn [Nat.add mapM] in E3. rewrite Nat.sub_diag, EH in E3. cbn [bind] in E3. apply Nat.ltb_lt in Hpos. rewrite Hpos in E3. injection E3 as <-.
    rewrite concat_app. cbn [concat]. rewrite app_nil_r. replace (concat b1) with (@nil bar); [reflexivity|]. symmetry. destruct (mapM_Ok _ _ _ E2) as [L1 Hb1]. rewrite seq_length in L1.
    assert (Z0 : forall x, In x b1 -> x = []).
    { intros x Hx. apply (In_nth _ _ []) in Hx. destruct Hx as (k & Hk & <-). specialize (Hb1 k 0%nat [] ltac:(rewrite seq_length; lia)). rewrite seq_nth in Hb1 by lia.
      destruct (tget (h_hom P) (np - 1) (0 + k) (n - (0 + k))) as [h|] eqn:Eh; [|discriminate]. cbn [bind] in Hb1.
      pose proof (proj1 (nt_calm _ _ _ _ _ _ _ _ _ _ NT (np - 1)%nat ltac:(lia) (0 + k)%nat (n - (0 + k))%nat ltac:(lia)) h Eh) as [X _]. rewrite X in Hb1. injection Hb1 as <-. reflexivity. }
    clear -Z0. induction b1 as [|x b1 IH]; [reflexivity|]. cbn [concat]. rewrite (Z0 x (or_introl eq_refl)). apply IH. intros y Hy. apply Z0. right. exact Hy. }
  rewrite Cbl in E. destruct (extension_matrix_row n H E1 Hn HL HB EH Hpos EE) as (N1 & C1 & W1 & El). specialize (El Ld).
  rewrite (po_p _ _ _ _ _ _ _ _ _ _ PO), (po_max_r _ _ _ _ _ _ _ _ _ _ PO) in E.
  destruct (assemble_elder rnd p max_r (b_bars H) E1 Hp) as (PH & EP & HPm).
  - intros X. rewrite X in Ld. cbn in Ld. lia.
  - apply RH.
  - lia.
  - lia.
  - exact W1.
  - exact El.
  - intros x y Hx Hy. apply Hrnd; eapply rips_ends; eauto.
  - intros x y Hx Hy. apply Hrnd; eapply rips_ends; eauto.
  - rewrite EP in E. cbn [bind] in E. injection E as <-. apply (barcode_perm p _ _ max_r (b_bars H)); [symmetry; exact HPm|exact RH].
Qed.

Theorem diagonal_beyond n o : (1 <= n < m)%nat -> (length nerve <= n)%nat -> diagonal rnd S P np n = Ok o -> o = None.
Proof.
  intros Hn HL E. unfold diagonal in E. rewrite (po_nerve _ _ _ _ _ _ _ _ _ _ PO) in E. destruct (diagonal_dims P np n (1 + length nerve)) as [dims|] eqn:Ed; [|discriminate]. cbn [bind] in E.
  assert (La : last dims 0%nat = 0%nat).
  { unfold diagonal_dims in Ed. destruct (mapM _ _) as [ds|] eqn:Em; [|discriminate]. cbn [bind] in Ed. injection Ed as <-. destruct (mapM_Ok _ _ _ Em) as [L1 Hd1]. rewrite seq_length in L1.
    rewrite cumulate_zeros'; [apply (last_zeros (Datatypes.S (length ds)))|].
    intros x Hx. apply (In_nth _ _ 0%nat) in Hx. destruct Hx as (k & Hk & <-). specialize (Hd1 k 0%nat 0%nat ltac:(rewrite seq_length; lia)). rewrite seq_nth in Hd1 by lia. cbn [Nat.add] in Hd1.
    replace np with (Datatypes.S (np - 1)) in Hd1 by lia. destruct (Nat.lt_ge_cases k n) as [L|L].
    - apply (proj2 (nt_calm _ _ _ _ _ _ _ _ _ _ NT (np - 1)%nat ltac:(lia) k (n - k)%nat ltac:(lia))). exact Hd1.
    - apply (nt_out _ _ _ _ _ _ _ _ _ _ NT (np - 1)%nat k (n - k)%nat _ ltac:(lia) ltac:(lia) Hd1). }
  rewrite La in E. cbn in E. injection E as <-. reflexivity.
Qed.
End NerveExt.
