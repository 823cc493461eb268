(** * The extension problem of two columns is solved without failure *)
From Coq Require Import QArith.
From Verif Require Import Base ListX SortX Lin Gauss_model Gauss_arith Gauss_col Gauss_solve Gauss_bar Basis_model Basis_props PH_model PH_loop PH_lin PH_step PH_props Simp_model Spec_Simp Simp_lists Simp_diff Simp_props
  Spec_PH Spec_Rips Rips_bd Rips_chain Rips_props LC_model Spec_LC LC_props SS_model Spec_SS SS_inv SS_page SS_cech SS_glue SS_e2 SS_lift SS_zig SS_first SS_double SS_fplift
  IK_model IK_lin IK_abs IK_quot IK_mph MPH_props Spec_IK Spec_Bars Bars MPH_bars Bars_complex Spec_E2 Spec_Two Blocks SS_rows Cover_model HP_model HP_table HP_row HP_gens HP_second HP_zero HP_pages HP_perm HP_two Two_col Two_fam HP_conv
  HP_ext HP_diag IK_rng SS_rng HP_shape HP_higher HP_first HP_deg HP_lift HP_refs.
From Coq Require Import Sorted Permutation Znumtheory.
Local Open Scope Z_scope.

Local Notation e0 := (LEntry [] LNil).

Section ExtT.
Variables (argsort : list Z -> list nat) (rnd : Z -> Z) (Dist : list (list Z)) (max_r max_dim p : Z)
  (IN : list (list (list nat))) (n0 : nat) (nerve : list (list simplex)).
Hypothesis HI : mv_input argsort Dist max_r max_dim p IN n0 nerve.
Variable S : ss.
Hypothesis PO : page_ok argsort rnd Dist max_r max_dim p IN n0 nerve S.
Hypothesis HN : pure_nerve n0 nerve.
Hypothesis Hlen : (1 < length nerve)%nat.
Hypothesis Htop : forall n, (2 <= n)%nat -> level n0 nerve n = [].
Variable np : nat.
Hypothesis Hnp : (2 <= np)%nat.
Let m := Z.to_nat max_dim.
Let Hp := mv_prime _ _ _ _ _ _ _ _ HI.
Let lev n := level n0 nerve n.
Let p_pos : 0 < p. Proof. destruct Hp. lia. Qed.
Let iff0 a : a mod p = 0 <-> cong p a 0. Proof. apply mod_cong_0. exact p_pos. Qed.
Local Notation widths := (sizes IN n0 nerve S).
Local Notation FB := (fam_bounds p Dist IN n0 nerve S).
Local Notation FZ := (fam_cycle p Dist IN n0 nerve S).
Local Notation PZ := (page2_cycle p Dist IN n0 nerve S).
Local Notation PB := (page2_bounds p Dist IN n0 nerve S).
Local Notation rb := (row_bars n0 nerve S).
Local Notation cmb := (fam_comb n0 nerve S).
Local Notation FC := (Two_fam.FC Dist p IN n0 nerve S).
Local Notation dD := (Two_fam.dD IN n0 nerve S).
Local Notation ch e := (fam_cech IN n0 nerve S e 0).
Let FBs d n r : Spec_Bars.subspace p (FB d n r). Proof. exact (fam_bounds_sub argsort Dist max_r max_dim p IN n0 nerve HI S d n r). Qed.
Let FZs d n r : Spec_Bars.subspace p (FZ d n r). Proof. exact (fam_cycle_sub argsort Dist max_r max_dim p IN n0 nerve HI S d n r). Qed.

Lemma cmb_zero d n c : (forall h, c h = 0) -> forall x, cmb d n c x = 0.
Proof. intros H x. unfold fam_comb. apply Zsum_0. intros k _. rewrite H. ring. Qed.

(** Bounds of the first page have no coefficients there. *)
Lemma zero_betas n d B R lf st : (d < m)%nat -> nrows B = length R -> ncols B = length (rb d n) -> wf_mat B -> (forall g h, 0 <= get B g h < p) ->
  (forall g, (g < length R)%nat -> FC (Datatypes.S d) n (nth g R 0) (fv lf g) /\
      (forall h, (h < length (rb d n))%nat -> nth g R 0 < bbirth (rb d n) h -> cong p (get B g h) 0) /\
      (forall x, cong p (fv st g x) (dD d n (fv lf g) x + cmb d n (get B g) x)) /\
      ((forall x, cong p (fv st g x) 0) -> forall x, fv lf g x = 0) /\
      (forall h, (h < length (rb d n))%nat -> get B g h <> 0 -> bbirth (rb d n) h <= nth g R 0 < bdeath (rb d n) h)) ->
  (forall g, (g < length R)%nat -> nth g R 0 < max_r -> FB d n (nth g R 0) (fv st g)) -> many B = false.
Proof.
  intros Hd NB CB WB RB HB HF. apply zero_many; [exact WB|]. rewrite NB, CB. intros g h Hg Hh. destruct (Z.eq_dec (get B g h) 0) as [|Hne]; [auto|]. exfalso.
  destruct (HB g Hg) as (W1 & W2 & W3 & _ & W5). pose proof (W5 h Hh Hne) as Al.
  destruct (fam_pb _ _ _ _ _ _ _ _ _ HI S PO d Hd (proj2 HN) n) as (Bars & _). specialize (Bars _ (nth_In _ (0, 0) Hh)). change (snd (nth h (rb d n) (0, 0))) with (bdeath (rb d n) h) in Bars.
  assert (L : nth g R 0 < max_r) by lia.
  assert (Fb : FB d n (nth g R 0) (cmb d n (get B g))).
  { refine (subs_cong p Hp _ _ _ (FBs _ _ _) _ (subs_sub p _ _ _ (FBs _ _ _) (HF g Hg L) (FB_dD argsort Dist max_r max_dim p IN n0 nerve HI S d n _ (fv lf g) W1))). intros x. cbv beta. rewrite (W3 x). apply cong_eq. ring. }
  pose proof (free_bounds argsort rnd Dist max_r max_dim p IN n0 nerve HI S PO HN Hlen np Hnp d n _ _ Hd L W2 Fb h Hh ltac:(lia)) as K.
  apply iff0 in K. rewrite Z.mod_small in K by apply RB. contradiction.
Qed.

(** Lifting no coefficients. *)
Lemma zero_lift P n d k V I B R o gm : (d < m)%nat -> plev rnd Dist max_r p IN n0 nerve S P n d k V I -> b_dim I = 0%nat ->
  nrows B = length R -> ncols B = length (rb d n) -> wf_mat B -> many B = false ->
  lift_to_page rnd S P n d (Datatypes.S k) B (map (fun t => (t, max_r)) R) = Ok (o, gm) -> any_opt o = false /\ any_opt gm = false.
Proof.
  intros Hd (_ & _ & reps & _ & _ & _ & _ & _ & _ & GV & LV) HI0 NB CB WB MB E.
  destruct (LV B R o gm NB CB WB E) as [(_ & -> & ->)|(Hpos & X & G & Y & -> & -> & NX & CX & WX & MY & HX)]; [split; reflexivity|]. cbn [any_opt]. split; [|apply MY; exact HI0].
  pose proof (many_zero _ MB) as B0. pose proof (ge_wb _ _ _ _ _ _ _ _ _ _ _ _ GV) as PBV. pose proof (ge_dim _ _ _ _ _ _ _ _ _ _ _ _ GV) as LdV.
  apply zero_many; [exact WX|]. rewrite NX, CX. intros i j Hi Hj. destruct (HX j Hj) as (Rg & Al & AlY & Rel). set (r := nth j R 0) in *.
  destruct (Z.eq_dec (get X i j) 0) as [|Hne]; [auto|]. exfalso. destruct (Al i Hi Hne) as [_ [A1 A2]]. pose proof (wb_bar p max_r _ _ _ _ PBV i ltac:(lia)) as Bv. unfold bbirth, bdeath in Bv.
  assert (L : r < max_r) by lia.
  pose proof (page2_bounds_sub _ _ _ _ _ _ _ _ HI S d n r Hd) as Su.
  assert (Z0 : forall x, cong p (dD d n (fun _ => 0) x) 0) by (intros x; apply (lin_zero p _ _ _ (L_dD p IN n0 nerve S d n)); reflexivity).
  pose proof (lift_rel2 argsort rnd Dist max_r max_dim p IN n0 nerve HI S PO HN Hlen np Hnp d n V I reps r (fun _ => 0) (fun _ => 0) (get B j) (fun k => get X k j) (fun k => get Y k j) Hd L GV) as F.
  assert (F' : PB d n r (fun x => 0 - Zsum (b_dim V) (fun k => get X k j * cmb d n (Spec_IK.column (b_coords V) k) x))).
  { apply F; auto.
    - apply (subs_zero p Hp); [apply (FC_sub argsort Dist max_r max_dim p IN n0 nerve HI S)|reflexivity].
    - intros x. rewrite Z0, cmb_zero by (intros h; apply B0). reflexivity.
    - intros h _ _. rewrite B0. reflexivity. }
  clear F. destruct PBV as (_ & HQ & _). destruct (HQ _ L) as (_ & _ & HQ3).
  pose (cc := fun k => if Nat.ltb k (b_dim V) then get X k j else 0).
  assert (M0 : cc i mod p = 0).
  { apply (HQ3 cc); [| |lia].
    - intros t Ht. unfold cc. destruct (Nat.ltb_spec t (b_dim V)) as [Lk|Lk]; [|reflexivity]. destruct (Z.eq_dec (get X t j) 0) as [|Hn]; [auto|]. elim Ht. apply (Al t Lk Hn).
    - assert (Z1 : PB d n r (fun _ => 0)) by (apply (subs_zero p Hp); [exact Su|reflexivity]).
      refine (sub_ext p _ _ _ Su _ (subs_sub p _ _ _ Su Z1 F')). intros x. cbv beta. rewrite <- LdV.
      rewrite (Zsum_ext _ (fun k => cc k * _) (fun k => get X k j * cmb d n (Spec_IK.column (b_coords V) k) x)); [ring|]. intros t Ht. unfold cc. apply Nat.ltb_lt in Ht. rewrite Ht. reflexivity. }
  unfold cc in M0. replace (Nat.ltb i (b_dim V)) with true in M0 by (symmetry; apply Nat.ltb_lt; exact Hi). rewrite Z.mod_small in M0 by apply Rg. contradiction.
Qed.

Lemma zero_ok P n d tp B R : (d < m)%nat -> lift_ok rnd Dist max_r p IN n0 nerve S P n d tp -> nrows B = length R -> ncols B = length (rb d n) -> wf_mat B -> many B = false ->
  exists o gm, lift_to_page rnd S P n d tp B (map (fun t => (t, max_r)) R) = Ok (o, gm).
Proof.
  intros Hd LO NB CB WB MB. pose proof (many_zero _ MB) as B0. apply LO; auto; [intros g h; rewrite B0; lia|].
  intros g Hg. split; [intros h _ _; rewrite B0; reflexivity|]. intros L. apply (subs_zero p Hp); [apply (page2_cycle_sub argsort Dist max_r max_dim p IN n0 nerve HI S d Hd)|].
  intros x. rewrite cmb_zero by (intros h; apply B0). reflexivity.
Qed.

Lemma fold_zero P n d I h c R B lf : (d < m)%nat -> levels rnd Dist max_r p IN n0 nerve S np P n d I h -> b_dim I = 0%nat ->
  (forall tp, (2 <= tp <= np)%nat -> lift_ok rnd Dist max_r p IN n0 nerve S P n d tp) ->
  first_page_lift S n d c R = Ok (B, lf) -> nrows B = length R -> ncols B = length (rb d n) -> wf_mat B -> many B = false ->
  forall l, (forall tp, In tp l -> (2 <= tp <= np)%nat) -> foldM (reduce_gammas rnd S P n d R (map (fun t => (t, max_r)) R)) l c = Ok c.
Proof.
  intros Hd LV HI0 LO EL NB CB WB MB. induction l as [|tp l IH]; intros Hl; [reflexivity|]. cbn [foldM]. pose proof (Hl tp (or_introl eq_refl)) as Ht.
  unfold reduce_gammas at 1. rewrite EL. cbn [bind]. destruct (zero_ok P n d tp B R Hd (LO tp Ht) NB CB WB MB) as (o & gm & EO). rewrite EO. cbn [bind].
  destruct (LV (tp - 1)%nat ltac:(lia)) as (V & PV & DV). replace tp with (Datatypes.S (tp - 1)) in EO by lia.
  destruct (zero_lift P n d (tp - 1) V I B R o gm Hd PV HI0 NB CB WB MB EO) as [-> ->]. cbn [bind]. apply IH. intros t Ht'. apply Hl. right. exact Ht'.
Qed.

Lemma get_mopp A i j : get (mopp A) i j = - get A i j.
Proof.
  unfold get, col, mopp. cbn [cols]. destruct (Nat.lt_ge_cases j (length (cols A))) as [H|H].
  - rewrite (nth_map (map Z.opp) (cols A) j []) by auto. unfold vget. destruct (Nat.lt_ge_cases i (length (nth j (cols A) []))) as [L|L].
    + rewrite (nth_map Z.opp _ i 0) by auto. reflexivity.
    + rewrite !nth_overflow by (rewrite ?map_length; auto). reflexivity.
  - rewrite !nth_overflow by (rewrite ?map_length; auto). unfold vget. destruct i; reflexivity.
Qed.

Lemma extension_total P d H1 I1 H0 I0 : (Datatypes.S d < m)%nat ->
  plev rnd Dist max_r p IN n0 nerve S P 1 d (np - 1) H1 I1 -> levels rnd Dist max_r p IN n0 nerve S np P 1 d I1 (b_dim H1) ->
  plev rnd Dist max_r p IN n0 nerve S P 0 (Datatypes.S d) (np - 1) H0 I0 -> levels rnd Dist max_r p IN n0 nerve S np P 0 (Datatypes.S d) I0 (b_dim H0) ->
  (0 < b_dim H1)%nat -> (forall T, tget (h_hom P) (np - 1) 1 d = Ok T -> b_flat T = false) -> rb (Datatypes.S d) 1 = [] ->
  (forall k, (k < length (lev 0))%nat -> b_bars (hom_of S 0 k d) = [] -> simplices IN S 0 k d = []) ->
  (forall tp, (2 <= tp <= np)%nat -> lift_ok rnd Dist max_r p IN n0 nerve S P 1 d tp) -> (forall tp, (2 <= tp <= np)%nat -> lift_ok rnd Dist max_r p IN n0 nerve S P 0 (Datatypes.S d) tp) ->
  (forall R, tget (h_reps P) (np - 1) 1 d = Ok R -> Forall (full (b_dim H1)) R) ->
  exists exts, extension rnd S P np 1 d = Ok exts.
Proof.
  intros Hd PL1 LV1 PL0 LV0 Hpos Hflat Hrow Hpts LO1 LO0 Hf1. assert (Hd' : (d < m)%nat) by lia.
  pose proof PL1 as (T1 & J1 & reps1 & EH1 & _ & _ & ER1 & EB1 & ED1 & G1 & LI1). pose proof PL0 as (T0 & J0 & reps0 & EH0 & _ & _ & ER0 & EB0 & ED0 & G0 & LI0).
  replace (Datatypes.S (np - 1)) with np in LI1, LI0 by lia.
  destruct (reps_one argsort Dist max_r max_dim p IN n0 nerve HI S d H1 I1 reps1 Hd' Hpos G1) as (rep & lift & -> & Gr & Gl & Rr & Rl & Hrep).
  pose proof (Hf1 _ ER1) as Ff. inversion_clear Ff as [|? ? Fr Ff']. inversion_clear Ff' as [|? ? Fl0 _].
  pose proof (ge_pb _ _ _ _ _ _ _ _ _ _ _ _ G1 ltac:(first [left; reflexivity | right; unfold row_bars; rewrite Htop by lia; reflexivity])) as PB1. pose proof (ge_dim _ _ _ _ _ _ _ _ _ _ _ _ G1) as Ld1.
  unfold extension. rewrite EH1. cbn [bind]. unfold death_radii. rewrite (Hflat _ EH1), EB1. cbn [bind]. rewrite ER1. cbn [bind].
  rewrite (copy_seq_ok [widths 1 d; widths 0 (Datatypes.S d)] [rep; lift]) by (constructor; [exact Gr|constructor; [exact Gl|constructor]]). cbn [bind].
  set (R := map snd (b_bars H1)) in *. assert (LR : length R = b_dim H1) by (unfold R; rewrite map_length; auto).
  assert (NR : forall g, (g < b_dim H1)%nat -> nth g R 0 = bdeath (b_bars H1) g) by (intros g Hg; unfold R; rewrite (nth_map snd (b_bars H1) g (0, 0)) by lia; reflexivity).  assert (Bar : forall g, (g < b_dim H1)%nat -> bbirth (b_bars H1) g < bdeath (b_bars H1) g <= max_r).
  { intros g Hg. apply (pb_bar p max_r _ _ _ _ PB1). lia. }
  assert (Z1 : forall g, (g < b_dim H1)%nat -> FZ d 1 (bbirth (b_bars H1) g) (cmb d 1 (Spec_IK.column (b_coords H1) g))).
  { intros g Hg. specialize (Bar g Hg). destruct PB1 as (_ & HQ & _). destruct (HQ (bbirth (b_bars H1) g) ltac:(lia)) as (HQ1 & _). apply (HQ1 g); lia. }  assert (HU : exists u, forall g, (g < b_dim H1)%nat -> FC (Datatypes.S d) 0 (bbirth (b_bars H1) g) (u g) /\ (forall x, cong p (dD d 0 (u g) x) (-1 * ch d (cmb d 1 (Spec_IK.column (b_coords H1) g)) x)) /\
    forall k, (k < length (lev 0))%nat -> (forall j, u g (k, j) = fv lift g (k, j)) \/ (b_bars (hom_of S 0 k d) = [] /\ ~ forall j, cong p (ch d (cmb d 1 (Spec_IK.column (b_coords H1) g)) (k, j)) 0)).
  { apply (pick_fun (fun _ : nat * nat => 0) (b_dim H1) (fun g ug => FC (Datatypes.S d) 0 (bbirth (b_bars H1) g) ug /\ (forall x, cong p (dD d 0 ug x) (-1 * ch d (cmb d 1 (Spec_IK.column (b_coords H1) g)) x)) /\
      forall k, (k < length (lev 0))%nat -> (forall j, ug (k, j) = fv lift g (k, j)) \/ (b_bars (hom_of S 0 k d) = [] /\ ~ forall j, cong p (ch d (cmb d 1 (Spec_IK.column (b_coords H1) g)) (k, j)) 0))). intros g Hg. specialize (Bar g Hg). destruct (Hrep g Hg) as (_ & U1 & U2). apply (full_lift argsort rnd Dist max_r max_dim p IN n0 nerve HI S PO HN Hlen np Hnp); auto. lia. }  destruct HU as [u HU].
  assert (HU' : forall g, (g < b_dim H1)%nat -> forall k j, (k < length (lev 0))%nat -> u g (k, j) = fv lift g (k, j)).
  { intros g Hg k j Hk. destruct (HU g Hg) as (_ & _ & X). destruct (X k Hk) as [X1|[Eb Hne]]; [apply X1|]. exfalso. apply Hne. intros i. apply iff0.
    destruct (fc_cycle _ _ _ _ _ _ _ _ _ HI S PO d Hd' (proj2 HN) _ _ _ (Z1 g Hg)) as [_ Y]. destruct (Y k Hk) as [Yc _]. destruct (Z.eq_dec (ch d (cmb d 1 (Spec_IK.column (b_coords H1) g)) (k, i) mod p) 0) as [|Hn]; [auto|]. exfalso.
    destruct (Yc i Hn) as [Z0 _]. rewrite (Hpts k Hk Eb) in Z0. cbn in Z0. lia. }
  change (length [rep; lift]) with 2%nat. cbn [seq mapM]. change (1 - 0)%nat with 1%nat. change (1 - 1)%nat with 0%nat. rewrite Nat.add_0_r. replace (d + 1)%nat with (Datatypes.S d) by lia. rewrite EH1, EH0. cbn [bind]. rewrite ED1, ED0.
  rewrite (po_max_r _ _ _ _ _ _ _ _ _ _ PO).
  destruct (existsb (fun b => b) (map (fun t => t <? max_r) R)) eqn:Ex; [|eexists; reflexivity].
  cbn [mapM].
  set (eb := map (fun t => t <? max_r) R) in *. assert (Leb : length eb = b_dim H1) by (unfold eb; rewrite map_length; exact LR).
  assert (Neb : forall g, (g < b_dim H1)%nat -> nth g eb false = (bdeath (b_bars H1) g <? max_r)).
  { intros g Hg. unfold eb. rewrite (nth_map (fun t => t <? max_r) R g 0) by lia. rewrite NR by auto. reflexivity. }
  destruct (zero_out_ok (widths 1 d) eb rep Gr) as (rep' & Er & Gr' & Rr' & Vr'); [rewrite Leb; exact Rr|].
  destruct (zero_out_ok (widths 0 (Datatypes.S d)) eb lift Gl) as (lift' & El & Gl' & Rl' & Vl'); [rewrite Leb; exact Rl|]. rewrite Leb in Rr', Rl'.  rewrite Er, El. cbn [bind]. pose proof (zero_out_full _ _ _ _ Fr Er) as Fr'. pose proof (zero_out_full _ _ _ _ Fl0 El) as Fl'.
  cbn [foldM seq].
  assert (Lev1 : lev 1 <> []).
  { intros Z0. destruct PB1 as (_ & HQ & _). specialize (Bar 0%nat Hpos). destruct (HQ (bbirth (b_bars H1) 0) ltac:(lia)) as (_ & _ & HQ3).
    specialize (HQ3 (fun k => if Nat.eqb k 0 then 1 else 0)).
    assert (X : 1 mod p = 0); [|rewrite Z.mod_1_l in X by (apply prime_ge_2 in Hp; lia); discriminate].
    apply (HQ3) with (k := 0%nat); [| |lia].
    - intros [|k] Hk; [exfalso; apply Hk; lia|reflexivity].
    - apply (subs_zero p Hp); [apply (page2_bounds_sub _ _ _ _ _ _ _ _ HI S d 1 _ Hd')|]. intros x. apply cong_eq. apply Zsum_0. intros k Hk.
      replace (cmb d 1 _ x) with 0; [ring|]. unfold fam_comb. unfold row_bars. fold (lev 1). rewrite Z0. reflexivity. }
  assert (Lev0 : lev 0 <> []).
  { intros Z0. pose proof (lev0_len n0 nerve) as X. cbv beta in X. change (level n0 nerve 0) with (lev 0) in X. rewrite Z0 in X. cbn in X.
    destruct (edge_ok _ _ _ _ _ _ _ _ HI S 0) as [_ Y]; [cbv beta; fold (lev 1); destruct (lev 1); [contradiction|cbn; lia]|lia]. }
  assert (Hcof : has_cofaces n0 nerve 0) by (destruct (proj1 HN 0%nat ltac:(lia)) as [X|X]; [elim Lev1; exact X|exact X]).
  assert (F0 : forall g x, (g < b_dim H1)%nat -> fv rep' g x = if bdeath (b_bars H1) g <? max_r then cmb d 1 (Spec_IK.column (b_coords H1) g) x else 0).
  { intros g x Hg. unfold fv. rewrite Vr', Neb by auto. destruct (_ <? _); [|reflexivity]. apply (proj1 (Hrep g Hg)). }
  assert (F1 : forall g, (g < b_dim H1)%nat -> FZ d 1 (bdeath (b_bars H1) g) (fv rep' g)).
  { intros g Hg. specialize (Bar g Hg). destruct (Z.ltb_spec (bdeath (b_bars H1) g) max_r) as [L|L].
    - apply (sub_ext p _ (cmb d 1 (Spec_IK.column (b_coords H1) g))); [apply FZs|intros x; rewrite F0 by auto; apply Z.ltb_lt in L; rewrite L; reflexivity|].
      destruct PB1 as (_ & _ & PBd). apply (PBd _ g L); lia.
    - apply (subs_zero p Hp); [apply FZs|]. intros x. rewrite F0 by auto. apply Z.ltb_ge in L. rewrite L. reflexivity. }  destruct (flift argsort rnd Dist max_r max_dim p IN n0 nerve HI S PO Hlen np Hnp 1 d rep' R ltac:(lia) Hd' Gr') as (B & lf & EL & NB & CB & WB & RB & GL & RL & HB); auto.
  { rewrite LR. exact Rr'. }
  { rewrite LR. intros g Hg. rewrite NR by auto. destruct (Z.ltb_spec (bdeath (b_bars H1) g) max_r) as [L|L]; [left; exact L|right]. intros x. rewrite F0 by auto. apply Z.ltb_ge in L. rewrite L. reflexivity. }
  { rewrite LR. intros g Hg. rewrite NR by auto. apply F1. exact Hg. }
  rewrite LR in NB, RL, HB.  assert (FB1 : forall g, (g < length R)%nat -> nth g R 0 < max_r -> FB d 1 (nth g R 0) (fv rep' g)).
  { rewrite LR. intros g Hg. rewrite NR by auto. intros L. apply (pb_fb argsort rnd Dist max_r max_dim p IN n0 nerve HI S PO HN); auto; [unfold row_bars; rewrite (Htop 2) by lia; reflexivity|].
    apply (sub_ext p _ (cmb d 1 (Spec_IK.column (b_coords H1) g))); [apply (page2_bounds_sub _ _ _ _ _ _ _ _ HI S d 1 _ Hd')|intros x; rewrite F0 by auto; apply Z.ltb_lt in L; rewrite L; reflexivity|]. destruct PB1 as (_ & _ & PBd). apply (PBd _ g L); lia. }
  assert (MB : many B = false) by (apply (zero_betas 1 d B R lf rep'); auto; rewrite LR; auto).
  assert (I10 : b_dim I1 = 0%nat).
  { apply (ge_im0 _ _ _ _ _ _ _ _ _ _ _ _ G1). unfold row_bars. rewrite (Htop 2) by lia. reflexivity. }
  rewrite <- LR in NB.
  destruct (zero_ok P 1 d np B R Hd' (LO1 np ltac:(lia)) NB CB WB MB) as (o0 & gm0 & EO0).
  destruct (zero_lift P 1 d (np - 1) H1 I1 B R o0 gm0 Hd' PL1 I10 NB CB WB MB ltac:(replace (Datatypes.S (np - 1)) with np by lia; exact EO0)) as [Mo0 _].
  unfold extension_step at 1. change (1 - 0)%nat with 1%nat. rewrite Nat.add_0_r. change (nth_err [rep'; lift'] 0) with (Ok rep'). cbn [bind]. rewrite EL. cbn [bind]. rewrite EO0. cbn [bind]. rewrite ER1. cbn [bind].
  unfold reduce_betas at 1. rewrite Mo0. cbn [bind]. change (nth_err [rep'; lift'] 0) with (Ok rep'). cbn [bind].
  rewrite (fold_zero P 1 d I1 (b_dim H1) rep' R B lf Hd' LV1 I10 LO1 EL NB CB WB MB) by (intros tp Htp; apply in_rev in Htp; apply in_seq in Htp; lia). cbn [bind]. rewrite EL. cbn [bind]. rewrite MB.
  pose proof (many_zero _ MB) as B00.
  assert (LF : forall g x, (g < b_dim H1)%nat -> cong p (dD d 1 (fv lf g) x) (fv rep' g x)).
  { intros g x Hg. destruct (HB g Hg) as (_ & _ & W & _). rewrite (W x). transitivity (dD d 1 (fv lf g) x + 0); [apply cong_eq; ring|]. apply cong_add; [reflexivity|]. symmetry.
    transitivity (cmb d 1 (fun _ => 0) x); [apply cmb_cong; intros h _; rewrite B00; reflexivity|]. apply cong_eq. unfold fam_comb. apply Zsum_0. intros; ring. }  pose proof (po_p _ _ _ _ _ _ _ _ _ _ PO) as Ep.
  destruct (minus_ok (widths 1 (Datatypes.S d)) p lf GL) as (Gm & Rm & Vm).
  pose proof Hlen as N1.
  destruct (cech_diff_ok _ _ _ _ _ _ _ _ _ HI S PO 0 (Datatypes.S d) (minus_chains p lf) N1 ltac:(unfold m in Hd; lia) Hcof Gm) as (im & Eim & _).
  destruct (cech_refs argsort rnd Dist max_r max_dim p IN n0 nerve HI S PO Hlen np Hnp 0 (Datatypes.S d) (minus_chains p lf) im (b_dim H1) N1 ltac:(unfold m in *; lia) Hcof Gm) as (Gim & Rim); [intros k g Hk; rewrite Rm in Hk; eapply RL; eauto|exact Eim|].
  destruct (add_chains_ok (widths 0 (Datatypes.S d)) lift' im Gl' Gim) as (c & Ec & Gc & Rc & Vc).  rewrite Ep. change (1 + d)%nat with (Datatypes.S d). rewrite Eim. cbn [bind]. change (nth_err [rep'; lift'] (1 + 0)) with (Ok lift'). cbn [bind]. rewrite Ec. cbn [bind list_set Nat.add app].
  assert (Fc0 : full (b_dim H1) c).
  { eapply add_full; [exact Fl'| |exact Ec]. eapply cech_full; [|exact Eim]. apply minus_full. eapply lift_full; [exact Fr'|exact EL]. }
  assert (Rc' : forall c, full (b_dim H1) c -> forall k g, In g (le_ref (nth k c e0)) -> (g < b_dim H1)%nat).
  { intros c' Fc' k g Hk. destruct (Fc' k) as [X|X]; rewrite X in Hk; [destruct Hk|]. apply in_seq in Hk. lia. }
  pose proof (L_dD p IN n0 nerve S d 0) as Ld0.
  assert (Lcd : linear p (ch d)) by (apply (L_ch max_dim p IN n0 nerve S); unfold m in Hd; lia).
  assert (Lch : linear p (ch (Datatypes.S d))) by (apply (L_ch max_dim p IN n0 nerve S); unfold m in Hd; lia).
  assert (Fc : forall g x, cong p (fv c g x) (fv lift' g x + -1 * ch (Datatypes.S d) (fv lf g) x)).
  { intros g [k j]. unfold fv at 1. cbn [fst snd]. rewrite Vc. apply cong_add; [reflexivity|]. rewrite <- lin_scale by exact Lch.
    destruct (Nat.lt_ge_cases k (length (lev 0))) as [L|L].
    - rewrite (cech_value _ _ _ _ _ _ _ _ _ HI S PO 0 (Datatypes.S d) (minus_chains p lf) im k g j N1 ltac:(unfold m in Hd; lia) Hcof Gm Eim L).
      transitivity (ch (Datatypes.S d) (fv (minus_chains p lf) g) (k, j)); [apply cong_eq; symmetry; apply (fci IN n0 nerve S (Datatypes.S d) 0 (fv (minus_chains p lf) g) k L j)|].
      apply (lin_ext _ _ Lch). intros x. unfold fv. rewrite Vm. apply (cong_mod_iff p _ _ p_pos). rewrite Zmod_mod. f_equal.
    - rewrite fco by exact L. pose proof (fv_out IN n0 nerve S im 0 (Datatypes.S d) g k j Gim L) as X. unfold fv in X. cbn [fst snd] in X. rewrite X. reflexivity. }
  assert (Fl : forall g x, (g < b_dim H1)%nat -> fv lift' g x = if bdeath (b_bars H1) g <? max_r then fv lift g x else 0).
  { intros g x Hg. unfold fv. rewrite Vl', Neb by auto. destruct (_ <? _); reflexivity. }
  assert (Fz : forall g, (g < b_dim H1)%nat -> max_r <= bdeath (b_bars H1) g -> forall x, cong p (fv c g x) 0).
  { intros g Hg L x. rewrite Fc, Fl by auto. apply Z.ltb_ge in L. rewrite L. destruct (HB g Hg) as (_ & _ & _ & W & _). 
    rewrite (lin_zero p (ch (Datatypes.S d)) (fv lf g) x Lch); [reflexivity|]. intros y. rewrite W; [reflexivity|]. intros z. rewrite F0 by auto. rewrite L. reflexivity. }
  assert (Fc' : forall g, (g < b_dim H1)%nat -> bdeath (b_bars H1) g < max_r -> forall x, cong p (fv c g x) (fv lift g x + -1 * ch (Datatypes.S d) (fv lf g) x)).
  { intros g Hg L x. rewrite Fc, Fl by auto. apply Z.ltb_lt in L. rewrite L. reflexivity. }
  assert (LF' : forall g, (g < b_dim H1)%nat -> bdeath (b_bars H1) g < max_r -> forall x, cong p (dD d 1 (fv lf g) x) (cmb d 1 (Spec_IK.column (b_coords H1) g) x)).
  { intros g Hg L x. rewrite LF, F0 by auto. apply Z.ltb_lt in L. rewrite L. reflexivity. }
  assert (LfC : forall g, (g < b_dim H1)%nat -> FC (Datatypes.S d) 1 (bdeath (b_bars H1) g) (fv lf g)).
  { intros g Hg. destruct (HB g Hg) as (W & _). rewrite NR in W by auto. exact W. }  assert (Q : forall g, (g < b_dim H1)%nat -> bdeath (b_bars H1) g < max_r -> FZ (Datatypes.S d) 0 (bdeath (b_bars H1) g) (fun x => u g x + -1 * ch (Datatypes.S d) (fv lf g) x)).
  { intros g Hg L. specialize (Bar g Hg).
    destruct (HU g Hg) as (U1 & U2 & _). apply (fam_cycle_iff _ _ _ _ _ _ _ _ HI S d 0). split.
    - refine (sub_ext p _ (fun x => u g x - ch (Datatypes.S d) (fv lf g) x) _ _ _ _); [apply (FC_sub argsort Dist max_r max_dim p IN n0 nerve HI S)|intros; ring|]. apply (subs_sub p); [apply (FC_sub argsort Dist max_r max_dim p IN n0 nerve HI S)| |].
      + eapply FC_mono; [|exact U1]. lia.
      + apply (In_ch _ _ _ _ _ _ _ _ _ HI S PO Hlen); [unfold m in Hd; lia|]. apply LfC. exact Hg.
    - intros x. rewrite lin_add by exact Ld0. rewrite lin_scale by exact Ld0. rewrite U2.
      rewrite (comm _ _ _ _ _ _ _ _ _ HI S PO Hlen d (fv lf g) x) by (unfold m in Hd; lia).
      rewrite (lin_ext _ _ Lcd _ _ (LF' g Hg L)). apply cong_eq. ring. }  assert (F2 : forall g, (g < b_dim H1)%nat -> FZ (Datatypes.S d) 0 (bdeath (b_bars H1) g) (fv c g)).
  { intros g Hg. destruct (Z_lt_ge_dec (bdeath (b_bars H1) g) max_r) as [L|L].
    2:{ apply (subs_zero p Hp); [apply FZs|]. apply Fz; [exact Hg|lia]. }
    refine (subs_cong p Hp _ _ _ (FZs _ _ _) _ (Q g Hg L)). intros [k j]. cbv beta. destruct (Nat.lt_ge_cases k (length (lev 0))) as [Lk|Lk].
    - rewrite (HU' g Hg k j Lk). rewrite (Fc' g Hg L (k, j)). reflexivity.
    - pose proof (proj1 (Q g Hg L) k j Lk) as X. apply iff0 in X. cbv beta in X. rewrite X. rewrite (fv_out IN n0 nerve S c 0 (Datatypes.S d) g k j Gc Lk). reflexivity. }
  (* the first column *)
  destruct (flift argsort rnd Dist max_r max_dim p IN n0 nerve HI S PO Hlen np Hnp 0 (Datatypes.S d) c R ltac:(lia) Hd Gc) as (B' & lf' & EL' & NB' & CB' & WB' & RB' & GL' & RL' & HB'); auto.
  { rewrite LR. exact (Rc' c Fc0). }
  { rewrite LR. intros g Hg. rewrite NR by auto. destruct (Z_lt_ge_dec (bdeath (b_bars H1) g) max_r) as [L|L]; [left; exact L|right]. apply Fz; [exact Hg|lia]. }
  { rewrite LR. intros g Hg. rewrite NR by auto. apply F2. exact Hg. }
  destruct (LO0 np ltac:(lia) B' R NB' CB' WB' RB') as (o1 & gm1 & EO1).
  { intros g Hg. destruct (HB' g Hg) as (W1 & W2 & W3 & _). split; [exact W2|]. intros L. rewrite LR in Hg. rewrite NR in * by auto.
    assert (X : FZ (Datatypes.S d) 0 (bdeath (b_bars H1) g) (cmb (Datatypes.S d) 0 (get B' g))).
    { refine (subs_cong p Hp _ _ _ (FZs _ _ _) _ (subs_sub p _ _ _ (FZs _ _ _) (F2 g Hg) (fam_bounds_cycle _ _ _ _ _ _ _ _ _ HI S PO (Datatypes.S d) Hd (proj2 HN) _ _ _ (FB_dD argsort Dist max_r max_dim p IN n0 nerve HI S (Datatypes.S d) 0 _ (fv lf' g) W1)))).
      intros x. cbv beta. rewrite (W3 x). apply cong_eq. ring. }
    split; [exact X|exact Logic.I]. }
  rewrite LR in HB', RL'.
  unfold extension_step. change (1 - 1)%nat with 0%nat. replace (d + 1)%nat with (Datatypes.S d) by lia. change (nth_err [rep'; c] 1) with (Ok c). cbn [bind]. rewrite EL'. cbn [bind]. rewrite EO1. cbn [bind]. rewrite ER0. cbn [bind].
  assert (K : exists c3, reduce_betas S o1 reps0 1 [rep'; c] = Ok [rep'; c3] /\ good (widths 0 (Datatypes.S d)) c3 /\ full (b_dim H1) c3 /\
    forall g, (g < b_dim H1)%nat -> (bdeath (b_bars H1) g < max_r -> FB (Datatypes.S d) 0 (bdeath (b_bars H1) g) (fv c3 g)) /\ (max_r <= bdeath (b_bars H1) g -> forall x, cong p (fv c3 g x) 0)).
  { destruct (LI0 B' R o1 gm1 NB' CB' WB' EO1) as [(Z0 & -> & ->)|(Hpos0 & X1 & G1' & Y1 & -> & -> & NX1 & CX1 & WX1 & MY1 & HX1)].
    - exists c. split; [reflexivity|]. split; [exact Gc|]. split; [exact Fc0|]. intros g Hg. split; [|apply Fz; exact Hg]. intros L.
      apply (pb_fb argsort rnd Dist max_r max_dim p IN n0 nerve HI S PO HN); auto.
      pose proof (page2_bounds_sub _ _ _ _ _ _ _ _ HI S (Datatypes.S d) 0 (bdeath (b_bars H1) g) Hd) as Su.
      destruct (ge_wb _ _ _ _ _ _ _ _ _ _ _ _ G0) as (_ & HQ & _). destruct (HQ _ L) as (_ & HQ2 & _). destruct (HQ2 (fv c g) (conj (F2 g Hg) Logic.I)) as (cc & _ & Hcc).
      refine (sub_ext p _ _ _ Su _ Hcc). intros x. cbv beta. rewrite <- (ge_dim _ _ _ _ _ _ _ _ _ _ _ _ G0), Z0. cbn [Zsum]. ring.
    - rewrite LR in CX1, HX1. pose proof (ge_wb _ _ _ _ _ _ _ _ _ _ _ _ G0) as PB0. pose proof (ge_dim _ _ _ _ _ _ _ _ _ _ _ _ G0) as Ld0'.
      assert (V : exists c3, reduce_betas S (Some X1) reps0 1 [rep'; c] = Ok [rep'; c3] /\ good (widths 0 (Datatypes.S d)) c3 /\ full (b_dim H1) c3 /\
        forall g x, (g < b_dim H1)%nat -> cong p (fv c3 g x) (fv c g x - Zsum (b_dim H0) (fun a => get X1 a g * cmb (Datatypes.S d) 0 (Spec_IK.column (b_coords H0) a) x))).
      { unfold reduce_betas. cbn [any_opt]. destruct (many X1) eqn:MX1.
        2:{ exists c. split; [reflexivity|]. split; [exact Gc|]. split; [exact Fc0|]. intros g x Hg. apply cong_eq. rewrite (Zsum_0 (b_dim H0)); [ring|]. intros a Ha. rewrite (many_zero _ MX1). ring. }
        destruct (ge_reps _ _ _ _ _ _ _ _ _ _ _ _ G0 Hpos0) as (rep0 & rest & -> & Gr0 & Rr0 & Vr0 & ->). cbn [length seq combine foldM fst snd Nat.add].
        destruct (mtr_dims (mopp X1)) as [D1 D2]. assert (NM : nrows (mopp X1) = b_dim H0) by exact NX1.
        assert (CM : ncols (mopp X1) = b_dim H1) by (rewrite <- CX1; unfold ncols, mopp; cbn [cols]; apply map_length). rewrite CM in D1. rewrite NM in D2.
        destruct (sums_ok (widths 0 (Datatypes.S d)) (mtr (mopp X1)) rep0 Gr0 ltac:(rewrite D2; exact Rr0)) as (b & Eb & Gb & Rb & Vb). rewrite Eb. cbn [bind]. change (nth_err [rep'; c] 1) with (Ok c). cbn [bind].
        assert (Fb : full (b_dim H1) b) by (intros k; rewrite Rb, D1; destruct (Nat.eqb _ 0); auto).
        destruct (subtract_ok p (widths 0 (Datatypes.S d)) (b_dim H1) c b p_pos Gc Gb Fc0 Fb) as (c3 & E3 & G3 & F3 & V3). rewrite Ep, E3. cbn [bind list_set]. exists c3. split; [reflexivity|]. split; [exact G3|]. split; [exact F3|].
        intros g [k j] Hg. unfold fv at 1. cbn [fst snd]. rewrite V3. apply cong_add; [reflexivity|]. rewrite Vb by lia. rewrite D2.
        destruct (Nat.lt_ge_cases k (length (lev 0))) as [Lk|Lk].
        - rewrite <- Zsum_opp. apply cong_eq. apply Zsum_ext. intros a Ha. rewrite get_mtr by lia. rewrite get_mopp. rewrite Vr0 by auto. ring.
        - rewrite !Zsum_0; [reflexivity| |].
          + intros a Ha. unfold fam_comb. rewrite (comb_out _ _ _ _ _ _ _ _ HI S _ Hd) by exact Lk. ring.
          + intros a Ha. pose proof (fv_out IN n0 nerve S rep0 0 (Datatypes.S d) a k j Gr0 Lk) as X. unfold fv in X. cbn [fst snd] in X. rewrite X. ring. }
      destruct V as (c3 & E3 & G3 & F3 & V3). exists c3. split; [exact E3|]. split; [exact G3|]. split; [exact F3|]. intros g Hg. split.
      + intros L. apply (pb_fb argsort rnd Dist max_r max_dim p IN n0 nerve HI S PO HN); auto.
        destruct (HX1 g Hg) as (Rg & Al & AlY & Rel). destruct (HB' g Hg) as (W1 & W2 & W3 & _). rewrite NR in Al, AlY, Rel, W1, W2 by auto.
        pose proof (lift_rel2 argsort rnd Dist max_r max_dim p IN n0 nerve HI S PO HN Hlen np Hnp (Datatypes.S d) 0 H0 I0 reps0 (bdeath (b_bars H1) g) (fv c g) (fv lf' g) (get B' g) (fun k => get X1 k g) (fun k => get Y1 k g) Hd L G0 W1 W3 W2 Al AlY Rel) as F.
        pose proof (page2_bounds_sub _ _ _ _ _ _ _ _ HI S (Datatypes.S d) 0 (bdeath (b_bars H1) g) Hd) as Su.
        refine (subs_cong p Hp _ _ _ Su _ F). intros x. cbv beta. symmetry. apply V3. exact Hg.
      + intros L x. rewrite (V3 g x Hg), (Fz g Hg L x). apply cong_eq. rewrite (Zsum_0 (b_dim H0)); [ring|]. intros a Ha. destruct (Z.eq_dec (get X1 a g) 0) as [->|Hne]; [ring|]. exfalso.
        destruct (HX1 g Hg) as (_ & Al & _). rewrite NR in Al by auto. destruct (Al a Ha Hne) as [_ [_ A]]. pose proof (wb_bar p max_r _ _ _ _ PB0 a ltac:(lia)) as Bv. unfold bdeath in *. lia. }
  destruct K as (c3 & E3 & G3 & F3 & K). rewrite E3. cbn [bind]. change (nth_err [rep'; c3] 1) with (Ok c3). cbn [bind].
  destruct (flift argsort rnd Dist max_r max_dim p IN n0 nerve HI S PO Hlen np Hnp 0 (Datatypes.S d) c3 R ltac:(lia) Hd G3) as (B3 & lf3 & EL3 & NB3 & CB3 & WB3 & RB3 & GL3 & RL3 & HB3); auto.
  { rewrite LR. exact (Rc' c3 F3). }
  { rewrite LR. intros g Hg. rewrite NR by auto. destruct (Z_lt_ge_dec (bdeath (b_bars H1) g) max_r) as [L|L]; [left; exact L|right]. apply K; [exact Hg|lia]. }
  { rewrite LR. intros g Hg. rewrite NR by auto. destruct (Z_lt_ge_dec (bdeath (b_bars H1) g) max_r) as [L|L].
    - apply (fam_bounds_cycle _ _ _ _ _ _ _ _ _ HI S PO (Datatypes.S d) Hd (proj2 HN)). apply K; auto.
    - apply (subs_zero p Hp); [apply FZs|]. apply K; [exact Hg|lia]. }
  assert (MB3 : many B3 = false).
  { apply (zero_betas 0 (Datatypes.S d) B3 R lf3 c3); auto. rewrite LR. intros g Hg. rewrite NR by auto. apply K. exact Hg. }
  assert (I00 : b_dim I0 = 0%nat) by (apply (ge_im0 _ _ _ _ _ _ _ _ _ _ _ _ G0); exact Hrow).
  rewrite (fold_zero P 0 (Datatypes.S d) I0 (b_dim H0) c3 R B3 lf3 Hd LV0 I00 LO0 EL3 NB3 CB3 WB3 MB3) by (intros tp Htp; apply in_rev in Htp; apply in_seq in Htp; lia). cbn [bind]. rewrite EL3. cbn [bind]. rewrite MB3. cbn [bind].
  eexists. reflexivity.
Qed.
End ExtT.
