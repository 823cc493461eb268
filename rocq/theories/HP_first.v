(** * The first page is computed without failure when no three elements of the cover meet, or all bars of a row are born together *)
From Coq Require Import QArith.
From Verif Require Import Base ListX SortX Lin Gauss_model Gauss_arith Gauss_col Gauss_solve Gauss_bar Basis_model Basis_props PH_model PH_loop PH_lin PH_step PH_props Simp_model Spec_Simp Simp_lists Simp_diff Simp_props
  Spec_PH Spec_Rips Rips_bd Rips_chain Rips_props LC_model Spec_LC LC_props SS_model Spec_SS SS_inv SS_page SS_cech SS_glue SS_lift SS_zig SS_first SS_double SS_fplift
  IK_model IK_rng IK_lin IK_abs IK_quot IK_mph MPH_props Spec_IK Spec_Bars Bars MPH_bars Bars_weak Bars_complex Spec_E2 Spec_Two Blocks SS_rows SS_rng Cover_model HP_model HP_table HP_row HP_gens HP_second HP_zero HP_pages HP_perm HP_two Two_col Two_fam HP_conv HP_ext HP_shape.
From Coq Require Import Sorted Permutation Znumtheory.
Local Open Scope Z_scope.
Local Notation e0 := (LEntry [] LNil).

Section First.
Variables (argsort : list Z -> list nat) (rnd : Z -> Z) (Dist : list (list Z)) (max_r max_dim p : Z)
  (IN : list (list (list nat))) (n0 : nat) (nerve : list (list simplex)).
Hypothesis HI : mv_input argsort Dist max_r max_dim p IN n0 nerve.
Variable S : ss.
Hypothesis PO : page_ok argsort rnd Dist max_r max_dim p IN n0 nerve S.
Hypothesis HN : pure_nerve n0 nerve.
Hypothesis Hlen : (1 < length nerve)%nat.
Hypothesis Hr : forall d, (d < Z.to_nat max_dim)%nat -> forall x y, local_end n0 nerve S d x -> local_end n0 nerve S d y -> rnd x <= rnd y -> x <= y.
Let m := Z.to_nat max_dim.
Let Hp := mv_prime _ _ _ _ _ _ _ _ HI.
Let lev n := level n0 nerve n.
Let L := length nerve.
Let p_pos : 0 < p. Proof. destruct Hp. lia. Qed.
Let p2 : 2 <= p. Proof. destruct Hp. lia. Qed.
Let iff0 a : a mod p = 0 <-> cong p a 0. Proof. apply mod_cong_0. lia. Qed.
Local Notation widths := (sizes IN n0 nerve S).
Local Notation FB := (fam_bounds p Dist IN n0 nerve S).
Local Notation FZ := (fam_cycle p Dist IN n0 nerve S).
Local Notation PB := (page2_bounds p Dist IN n0 nerve S).
Local Notation rb := (row_bars n0 nerve S).
Local Notation cmb := (fam_comb n0 nerve S).
Local Notation dims := (SS_zig.dims n0 nerve S).

Lemma localize_total n d C ref : (n < L)%nat -> (d < m)%nat -> nrows C = length (rb d n) -> length ref = ncols C ->
  exists c, localize S n d C ref (cumulate 0 (dims n d)) = Ok c.
Proof.
  intros Hn Hd HC Href. unfold localize. rewrite (spx_ok _ _ _ _ _ _ _ _ _ _ PO n) by (unfold L in Hn; lia). cbn [bind]. rewrite cumulate_length.
  set (ds := dims n d). assert (Lds : length ds = length (lev n)) by apply dims_length.
  match goal with |- context [foldM ?f ?l (empty_chains ?k, 0%nat)] => destruct (window_total f (fun c => length c = length (lev n)) ds 0%nat 0%nat (empty_chains k)) as ([c x] & E) end.
  - intros c prev kn Hl. rewrite Hl. reflexivity.
  - intros i c Hi Hc Hpos. rewrite !Nat.add_0_l. cbn [fst snd]. rewrite Lds in Hi.
    destruct (Nat.ltb_spec (list_sum (firstn i ds)) (list_sum (firstn i ds) + nth i ds 0)%nat) as [_|X]; [|lia].
    rewrite (the_local_ok _ _ _ _ _ _ _ _ _ S PO n i Hn Hi). cbn [bind].
    destruct (hom0_of _ _ _ _ _ _ _ _ _ HI S PO n i d Hn Hi ltac:(unfold m in Hd; lia)) as [E1 E2].
    assert (D1 : nth i ds 0%nat = length (b_bars (hom_of S n i d))) by (unfold ds; rewrite dims_nth by auto; auto).
    rewrite E1. cbn [bind].
    destruct (loc_shape _ _ _ _ _ _ _ _ _ HI S PO n i d Hn Hi Hd) as (S1 & S2 & S3).
    assert (Hend : (list_sum (firstn i ds) + nth i ds 0 <= nrows C)%nat).
    { rewrite HC, row_bars_length. unfold ds at 1. rewrite (before_start _ _ _ _ _ _ _ _ _ HI S PO) by (auto; unfold lev in Hi; lia). rewrite D1. change (length (b_bars (hom_of S n i d))) with (famlen S d n i). apply start_end. exact Hi. }
    unfold matmul. cbn [nrows slice_rows]. rewrite Nat.min_l by exact Hend.
    destruct (Nat.eqb_spec (ncols (b_coords (hom_of S n i d))) (list_sum (firstn i ds) + nth i ds 0 - list_sum (firstn i ds))%nat) as [_|X]; [|unfold ncols in X; lia].
    cbn [bind].
    match goal with |- context [add_entry c i ref ?co] => destruct (proj2 (add_entry_ok c i ref co ltac:(lia))) as (c1 & E3 & L1 & _) end.
    { cbn [lrows mmul cols slice_rows]. rewrite !map_length. exact Href. }
    rewrite E3. cbn [bind]. exists c1. split; [reflexivity|]. lia.
  - unfold empty_chains. apply repeat_length.
  - fold ds in E. rewrite E. cbn [bind]. eauto.
Qed.

(** The Cech differential of a cycle of the second page has no coefficients on the first page. *)
Lemma no_betas d n' st R c B lf : (Datatypes.S n' < L)%nat -> (d < m)%nat -> has_cofaces n0 nerve n' -> good (widths (Datatypes.S n') d) st ->
  (forall g, (g < length R)%nat -> nth g R 0 < max_r) ->
  (forall g, (g < length R)%nat -> FB d n' (nth g R 0) (fam_cech IN n0 nerve S d n' (fv st g))) ->
  cech_diff S n' d st = Ok c -> nrows B = length R -> ncols B = list_sum (dims n' d) -> wf_mat B -> (forall g h, 0 <= get B g h < p) ->
  (forall k g, (k < length (lev n'))%nat -> (g < length R)%nat ->
      let H := hom_of S n' k d in
      local_cycle p Dist IN S n' d k (nth g R 0) (value c k g) /\
      local_chain p Dist IN S n' (Datatypes.S d) k (nth g R 0) (value lf k g) /\
      (forall h, (h < length (b_bars H))%nat -> get B g (before n0 nerve S n' d k + h) <> 0 -> bbirth (b_bars H) h <= nth g R 0 < bdeath (b_bars H) h) /\
      (b_bars H <> [] -> forall j, cong p (value c k g j + local_bd IN S n' d k (value lf k g) j)
                        (Zsum (length (b_bars H)) (fun h => get B g (before n0 nerve S n' d k + h) * get (b_coords H) j h)))) ->
  many B = false.
Proof.
  intros Hn Hd Hcof Gst HR Hcyc Ec NB CB WB RB HK. apply zero_many; [exact WB|]. intros g h Hg Hh. rewrite NB in Hg.
  assert (Cl : list_sum (dims n' d) = length (rb d n')).
  { pose proof (before_start _ _ _ _ _ _ _ _ _ HI S PO n' d (length (lev n')) ltac:(unfold L in Hn; lia) Hd (le_n _)) as X.
    rewrite firstn_all2 in X by (rewrite dims_length; apply le_n). rewrite X. symmetry. apply row_bars_length. }
  rewrite CB, Cl in Hh.
  assert (Bf : forall k, (k < length (lev n'))%nat -> before n0 nerve S n' d k = start (famlen S d n') k).
  { intros k Hk. unfold before. apply (before_start _ _ _ _ _ _ _ _ _ HI S PO); [unfold L in Hn; lia|exact Hd|]. unfold lev in Hk. lia. }
  assert (Al : forall h, (h < length (rb d n'))%nat -> get B g h <> 0 -> bbirth (rb d n') h <= nth g R 0 < bdeath (rb d n') h).
  { intros i Hi Hne. destruct (row_pos n0 nerve S d n' i Hi) as (k & a & Hk & Hka & ->). destruct (HK k g Hk Hg) as (_ & _ & K3 & _).
    rewrite Bf in K3 by exact Hk. unfold bbirth, bdeath. rewrite row_bars_nth by auto. apply (K3 a Hka Hne). }
  assert (FB1 : FB d n' (nth g R 0) (cmb d n' (get B g))).
  { pose proof (fam_bounds_sub argsort Dist max_r max_dim p IN n0 nerve HI S d n' (nth g R 0)) as Su.
    assert (D : FB d n' (nth g R 0) (fun x => fam_cech IN n0 nerve S d n' (fv st g) x - cmb d n' (get B g) x)).
    { split.
      - intros k j Hk. unfold fam_cech. cbn [fst snd]. destruct (Nat.ltb_spec k (length (level n0 nerve n'))) as [X|_]; [lia|].
        unfold fam_comb. rewrite (comb_out _ _ _ _ _ _ _ _ HI S d Hd) by exact Hk. reflexivity.
      - intros k Hk. destruct (HK k g Hk Hg) as (K1 & K2 & K3 & K4).
        assert (Ev : forall j, cong p (part (fun x => fam_cech IN n0 nerve S d n' (fv st g) x - cmb d n' (get B g) x) k j)
                   (value c k g j - Zsum (length (b_bars (hom_of S n' k d))) (fun h => get B g (before n0 nerve S n' d k + h) * get (b_coords (hom_of S n' k d)) j h))).
        { intros j. unfold part at 1. pose proof (fci IN n0 nerve S d n' (fv st g) k Hk j) as X. unfold part at 1 in X. rewrite X. clear X.
          rewrite (cech_value _ _ _ _ _ _ _ _ _ HI S PO n' d st c k g j Hn ltac:(lia) Hcof Gst Ec Hk).
          pose proof (comb_part _ _ _ _ _ _ _ _ HI S d Hd n' k (get B g) j Hk) as X. unfold part in X. unfold fam_comb. rewrite X. rewrite Bf by exact Hk. reflexivity. }
        destruct (list_eq_dec (fun a b : Z * Z => ltac:(decide equality; apply Z.eq_dec)) (b_bars (hom_of S n' k d)) []) as [E|E].
        + apply (no_class _ _ _ _ _ _ _ _ _ HI S PO n' d k); auto; [unfold L in Hn; lia|].
          refine (local_cycle_cong argsort rnd Dist max_r max_dim p IN n0 nerve HI S n' d k _ _ _ _ K1). intros j. rewrite (Ev j), E. cbn [length Zsum]. apply cong_eq. ring.
        + exists (fun j => -1 * value lf k g j). split.
          * intros j Hj. apply K2. intros X. apply Hj. apply iff0. apply iff0 in X. rewrite X. reflexivity.
          * intros j. apply cong_mod_iff; [lia|]. rewrite (Ev j), <- (K4 E j). unfold local_bd.
            transitivity (-1 * Zsum (length (simplices IN S n' k (Datatypes.S d))) (fun i => get (nth d (l_Ds (loc_of S n' k)) (Mat 0 [])) j i * value lf k g i)); [|apply cong_eq; ring].
            apply cong_eq. rewrite <- Zsum_scale. apply Zsum_ext. intros i _. ring. }
    refine (sub_ext p _ _ _ Su _ (subs_sub p _ _ _ Su (Hcyc g Hg) D)). intros x. ring. }
  destruct (Z.eq_dec (get B g h) 0) as [->|Hne]; [reflexivity|]. exfalso.
  pose proof (free_bounds _ _ _ _ _ _ _ _ _ HI S PO HN Hlen 2 (le_n _) d n' (nth g R 0) (get B g) Hd (HR g Hg)) as FR.
  assert (X : cong p (get B g h) 0).
  { apply FR; auto.
    - intros i Hi Hb. destruct (Z.eq_dec (get B g i) 0) as [->|Hni]; [reflexivity|]. specialize (Al i Hi Hni). lia.
    - apply (Al h Hh Hne). }
  apply iff0 in X. rewrite Z.mod_small in X by auto. contradiction.
Qed.

Hypothesis cl_below : forall n d, (d < m)%nat -> classes n0 nerve S (Datatypes.S n) d <> 0%nat -> classes n0 nerve S n d <> 0%nat.
Hypothesis Hbirths : forall n d, (n < L)%nat -> (d < m)%nat -> (n = 0%nat \/ rb d (Datatypes.S n) = []) \/ exists b0, (forall x, In x (rb d n) -> fst x = b0) /\ forall x, In x (rb d (Datatypes.S n)) -> fst x = b0.

(** The representatives of the classes of a position. *)
Lemma two_page_total n d H : (n < L)%nat -> (d < m)%nat -> (0 < b_dim H)%nat ->
  weak_basis p (page2_cycle p Dist IN n0 nerve S d n) (PB d n) max_r (b_bars H) (fun k => cmb d n (Spec_IK.column (b_coords H) k)) ->
  b_dim H = length (b_bars H) -> over H (row_base n0 nerve S d n) ->
  exists rc, two_page_reps S H n d rc.
Proof.
  intros Hn Hd Hpos PBs Hdim Ho. unfold two_page_reps.
  destruct Ho as (Hbo & _ & _ & _ & Hnr & Hnc & Hwf). cbn [row_base b_dim] in Hnr.
  pose proof PBs as PB0. destruct PBs as (PB1 & PB2 & PB3).
  assert (Hbirth : forall g, (g < b_dim H)%nat -> bbirth (b_bars H) g < bdeath (b_bars H) g /\ bbirth (b_bars H) g < max_r).
  { intros g Hg. pose proof (PB1 (nth g (b_bars H) (0, 0)) (nth_In _ _ ltac:(rewrite <- Hdim; exact Hg))). unfold bbirth, bdeath. lia. }
  assert (Hcyc : forall g, (g < b_dim H)%nat -> page2_cycle p Dist IN n0 nerve S d n (bbirth (b_bars H) g) (cmb d n (Spec_IK.column (b_coords H) g))).
  { intros g Hg. destruct (Hbirth g Hg) as [X1 X2]. destruct (PB2 _ X2) as (Q & _). apply (Q g); [lia|]. lia. }
  assert (Hrb : (0 < length (rb d n))%nat).
  { destruct (Nat.eq_dec (length (rb d n)) 0) as [Hz|]; [exfalso|lia].
    destruct (Hbirth 0%nat Hpos) as [X1 X2].
    pose proof (row_zero _ _ _ _ _ _ _ _ _ HI S PO HN d Hd n _ _ Hz X2 (proj1 (Hcyc 0%nat Hpos))) as RZ.
    destruct (PB2 _ X2) as (_ & _ & Q). specialize (Q (fun k => if Nat.eqb k 0 then 1 else 0)).
    assert (Y : 1 mod p = 0); [|rewrite Z.mod_1_l in Y by lia; lia].
    refine (Q _ _ 0%nat ltac:(lia)).
    - intros k Hk. destruct (Nat.eqb_spec k 0) as [->|]; [lia|reflexivity].
    - refine (sub_ext p _ _ _ (page2_bounds_sub _ _ _ _ _ _ _ _ HI S d n _ Hd) _ RZ). intros x. rewrite (Zsum_single _ 0%nat); [cbn [Nat.eqb]; ring|lia|].
      intros i Hi Hne. destruct (Nat.eqb_spec i 0) as [->|]; [congruence|ring]. }
  assert (Hlev : lev n <> []).
  { intros X. rewrite rb_len in Hrb. unfold classes in Hrb. fold (lev n) in Hrb. rewrite X in Hrb. cbn in Hrb. lia. }
  destruct (cyc_ok _ _ _ _ _ _ _ _ _ HI S PO n d Hn Hlev Hd) as [Ec _].
  destruct (localize_total n d (b_coords H) (seq 0 (b_dim H)) Hn Hd Hnr ltac:(rewrite seq_length; lia)) as (rep & Eloc).
  destruct (localize_ok _ _ _ _ _ _ _ _ _ HI S PO n d _ _ _ Hn Hd Hwf Hnr (seq_sorted (b_dim H) 0) Eloc) as (G1 & G2 & G3).
  assert (V : forall k g j, (k < length (lev n))%nat -> (g < b_dim H)%nat -> value rep k g j = cmb d n (Spec_IK.column (b_coords H) g) (k, j)).
  { intros k g j Hk Hg. pose proof (G3 k g j Hk ltac:(rewrite seq_length; exact Hg)) as X. rewrite seq_nth in X by exact Hg. exact X. }
  assert (R1 : forall k g, In g (le_ref (nth k rep e0)) -> (g < b_dim H)%nat) by (intros k g X; apply G2 in X; apply in_seq in X; lia).
  assert (Rest : exists rc, match n with
    | O => rc = [rep]
    | Datatypes.S n' => exists R B lift, birth_radii H = Ok R /\ cech_diff_and_lift S n' d rep R = Ok (B, lift) /\ many B = false /\ rc = [rep; lift] end).
  2:{ destruct Rest as (rc & Hrc). exists rc, (cumulate 0 (dims n d) ++ [0%nat]), rep. split; [exact Ec|]. split; [rewrite removelast_last; exact Eloc|exact Hrc]. }
  destruct n as [|n']; [eauto|].
  destruct Hbo as (Hfl & _). unfold birth_radii. rewrite Hfl.
  assert (LR : length (map fst (b_bars H)) = b_dim H) by (rewrite map_length; auto).
  assert (NR : forall g, (g < b_dim H)%nat -> nth g (map fst (b_bars H)) 0 = bbirth (b_bars H) g).
  { intros g Hg. unfold bbirth. change 0 with (fst (0, 0)) at 1. apply map_nth. }
  assert (Hcof : has_cofaces n0 nerve n').
  { destruct (proj1 HN n' Hn) as [X|X]; [|exact X]. exfalso. apply Hlev. exact X. }
  rewrite rb_len in Hrb. pose proof (cl_below n' d Hd ltac:(lia)) as Hcl.
  assert (Hlev' : lev n' <> []).
  { intros X. apply Hcl. unfold classes. fold (lev n'). rewrite X. reflexivity. }
  destruct (cech_diff_and_lift_ok _ _ _ _ _ _ _ _ _ HI S PO n' d rep (map fst (b_bars H)) Hn Hd Hcof G1) as (c & B & lift & Ec' & El & K1 & K2 & K3 & K4 & K5 & K6 & K7).
  - intros s g X. rewrite LR. eauto.
  - intros g X. rewrite LR in X. rewrite NR by exact X. apply Hbirth. exact X.
  - intros s g Hs X. rewrite LR in X. rewrite NR by exact X. fold (lev (Datatypes.S n')) in Hs.
    destruct (proj1 (Hcyc g X)) as [_ Y]. specialize (Y s Hs).
    refine (local_cycle_cong argsort rnd Dist max_r max_dim p IN n0 nerve HI S (Datatypes.S n') d s _ _ _ _ Y). intros j. apply cong_eq. symmetry. apply V; auto.
  - intros _. exact Hlev'.
  - exists [rep; lift], (map fst (b_bars H)), B, lift. split; [reflexivity|]. split; [exact El|]. split; [|reflexivity].
    refine (no_betas d n' rep (map fst (b_bars H)) c B lift Hn Hd Hcof G1 _ _ Ec' K1 K2 K3 K4 _).
    + intros g X. rewrite LR in X. rewrite NR by exact X. apply Hbirth. exact X.
    + intros g X. rewrite LR in X. rewrite NR by exact X. destruct (Hcyc g X) as [_ Y].
      refine (sub_ext p _ _ _ (fam_bounds_sub argsort Dist max_r max_dim p IN n0 nerve HI S d n' _) _ Y).
      intros [k j]. unfold fam_cech. cbn [fst snd]. destruct (Nat.ltb k (length (level n0 nerve n'))); [|reflexivity].
      unfold cech_image. f_equal. apply Zsum_ext. intros s Hs. f_equal. unfold on_simplices. apply Zsum_ext. intros i _. cbv zeta. unfold part, fv. cbn [fst snd]. rewrite (V s g i Hs X). reflexivity.
    + intros k g Hk X. destruct (K7 k g Hk X) as (J1 & J2 & J3 & J4 & _). split; [exact J1|]. split; [exact J2|]. split; [exact J3|]. exact J4.
Qed.

(** What is kept about the first page besides [gens]. *)
Definition ranges (P : pages) (d n : nat) : Prop :=
  exists H I, tget (h_hom P) 1 n d = Ok H /\ tget (h_im P) 1 n d = Ok (Some I) /\ redm p (b_coords H) /\ redm p (b_coords I).

Theorem first_row_total np cs d P : (d < m)%nat -> (2 <= np)%nat -> (L <= cs)%nat -> shape np cs m P ->
  exists P', first_page_row rnd S P d = Ok P' /\ shape np cs m P' /\ forall n, (n < L)%nat -> ranges P' d n.
Proof.
  intros Hd Hnp Hcs SH. assert (HL : (0 < L)%nat) by (unfold L; lia).
  unfold first_page_row. rewrite (po_nerve _ _ _ _ _ _ _ _ _ _ PO). rewrite (row_bases _ _ _ _ _ _ _ _ _ HI S PO HN d Hd (Hr d Hd)). cbn [bind].
  destruct (row_diffs _ _ _ _ _ _ _ _ _ HI S PO HN d Hd (Hr d Hd)) as (D & ED & LD & HD).
  match goal with |- context [bind ?x _] => replace x with (Ok D) end. cbn [bind]. rewrite (po_p _ _ _ _ _ _ _ _ _ _ PO).
  destruct (row_mph _ _ _ _ _ _ _ _ _ HI S PO HN d Hd (Hr d Hd) D LD HD HL) as (Hom & Im & Pre & EH & L1 & L2 & L3). rewrite EH. cbn [bind].
  assert (RD : Forall (redm p) D).
  { refine (mapM_all _ (redm p) _ _ D ED). intros [|n'] y E; [injection E as <-; constructor|].
    destruct (first_differential S n' d) as [[B|]|] eqn:EF; cbn [bind] in E; try discriminate; injection E as <-; [|constructor].
    apply redm_tr; [exact p2|]. rewrite <- (po_p _ _ _ _ _ _ _ _ _ _ PO). apply (first_red S ltac:(rewrite (po_p _ _ _ _ _ _ _ _ _ _ PO); exact p2) n' d B EF). }
  assert (RB : Forall (fun B => redm p (b_coords B)) (map (row_base n0 nerve S d) (seq 0 (length nerve)))).
  { apply Forall_forall. intros x Hx. apply in_map_iff in Hx. destruct Hx as (i & <- & _). constructor. }
  destruct (mph_red p p2 rnd D _ Hom Im Pre RD RB EH) as [RH RI].
  destruct (add_output_total np cs m (combine (combine Hom Im) Pre) P 0 d 1 SH ltac:(lia) Hd) as (P1 & EA & SH1).
  { intros i Hi. rewrite !combine_length, L1, L2, L3 in Hi. unfold L in Hcs. lia. }
  rewrite EA. cbn [bind].
  destruct (add_output_first _ _ _ _ _ EA) as (A1 & A2 & A3).
  assert (A1' : forall k, (k < L)%nat -> tget (h_hom P1) 1 k d = Ok (nth k Hom empty_basis) /\ tget (h_im P1) 1 k d = Ok (Some (nth k Im empty_basis)) /\ tget (h_dim P1) 2 k d = Ok (b_dim (nth k Hom empty_basis))).
  { intros k Hk. apply (A1 k (nth k Hom empty_basis) (nth k Im empty_basis) (nth k Pre None)). unfold L in Hk.
    rewrite (nth_error_nth' _ (empty_basis, empty_basis, None)) by (rewrite !combine_length; lia). rewrite combine_nth by (rewrite combine_length; lia). rewrite combine_nth by lia. reflexivity. }
  assert (A4 : forall k, (k < L)%nat -> (0 < b_dim (nth k Hom empty_basis))%nat -> exists rc, two_page_reps S (nth k Hom empty_basis) k d rc).
  { intros k Hk Hpos.
    assert (Hover : ~ over_zero (map (row_base n0 nerve S d) (seq 0 L)) k).
    { intros X. apply (over_iff _ _ _ _ _ _ _ _ _ HI S PO HN d Hd (Hr d Hd) k Hk) in X. destruct k as [|k]; [exact X|]. destruct X as [X1 X2]. apply (cl_below k d Hd X1 X2). }
    assert (W : weak_basis p (page2_cycle p Dist IN n0 nerve S d k) (PB d k) max_r (b_bars (nth k Hom empty_basis)) (fun i => cmb d k (Spec_IK.column (b_coords (nth k Hom empty_basis)) i)) /\
      b_dim (nth k Hom empty_basis) = length (b_bars (nth k Hom empty_basis)) /\ ((0 < b_dim (nth k Hom empty_basis))%nat -> over (nth k Hom empty_basis) (row_base n0 nerve S d k))).
    { destruct (Hbirths k d Hk Hd) as [Hrb|(b0 & X1 & X2)].
      - destruct (row_pb _ _ _ _ _ _ _ _ _ HI S PO HN d Hd (Hr d Hd) D LD HD Hom Im Pre k HL EH Hk Hover Hrb) as (B1 & B2 & B3 & _). split; [|auto].
        apply pb_weak; auto. intros r _. apply (page2_bounds_sub _ _ _ _ _ _ _ _ HI S d k _ Hd).
      - destruct (row_wb _ _ _ _ _ _ _ _ _ HI S PO HN d Hd (Hr d Hd) D LD HD Hom Im Pre k b0 HL EH Hk Hover X1 X2) as (B1 & B2 & B3 & _). auto. }
    destruct W as (B1 & B2 & B3). apply (two_page_total k d (nth k Hom empty_basis)); auto. }
  match goal with |- exists P', foldM ?f ?l ?s = Ok P' /\ _ => destruct (foldM_total f (fun Q => shape np cs m Q /\ h_hom Q = h_hom P1 /\ h_im Q = h_im P1) l s) as (P' & EP & SP & HHom & HIm) end.
  - split; [exact SH1|]. split; reflexivity.
  - intros Q n Hn (SQ & Q1 & Q2). apply in_seq in Hn. fold L in Hn. destruct (A1' n ltac:(lia)) as (T1 & _ & _). rewrite Q1, T1. cbn [bind].
    destruct (Nat.ltb_spec 0 (b_dim (nth n Hom empty_basis))) as [Hpos|_]; [|eauto].
    destruct (A4 n ltac:(lia) Hpos) as (rc & cyc & rep & E1 & E2 & E3).
    destruct (set_reps_total np cs m Q 1 n d rc SQ ltac:(lia) ltac:(lia) Hd) as (Q' & EQ & SQ'). exists Q'.
    assert (Hk : h_hom Q' = h_hom Q /\ h_im Q' = h_im Q).
    { unfold set_reps in EQ. destruct (tset (h_reps Q) 1 n d rc); [|discriminate]. injection EQ as <-. split; reflexivity. }
    split; [|split; [exact SQ'|split; [rewrite (proj1 Hk); exact Q1|rewrite (proj2 Hk); exact Q2]]].
    unfold compute_two_page_representatives. rewrite Q1, T1. cbn [bind]. destruct (Nat.eqb_spec (b_dim (nth n Hom empty_basis)) 0) as [X|_]; [lia|].
    rewrite E1. cbn [bind]. rewrite E2. cbn [bind]. destruct n as [|n'].
    + subst rc. cbn [bind]. exact EQ.
    + destruct E3 as (R & B & lf & F1 & F2 & F3 & ->). rewrite F1. cbn [bind]. rewrite F2. cbn [bind]. rewrite F3. cbn [bind]. exact EQ.
  - rewrite EP. exists P'. split; [reflexivity|]. split; [exact SP|]. intros n Hn. destruct (A1' n Hn) as (T1 & T2 & _).
    exists (nth n Hom empty_basis), (nth n Im empty_basis). rewrite HHom, HIm. split; [exact T1|]. split; [exact T2|]. rewrite Forall_forall in RH, RI.
    split; [apply (RH (nth n Hom empty_basis)); apply nth_In; unfold L in Hn; lia|apply (RI (nth n Im empty_basis)); apply nth_In; unfold L in Hn; lia].
Qed.

(** All rows of the first page. *)
Theorem first_page_total np cs P : (2 <= np)%nat -> (L <= cs)%nat -> shape np cs m P ->
  exists P', foldM (first_page_row rnd S) (seq 0 m) P = Ok P' /\ shape np cs m P' /\ forall n d, (n < L)%nat -> (d < m)%nat -> ranges P' d n.
Proof.
  intros Hnp Hcs SH. assert (HL : (0 < L)%nat) by (unfold L; lia).
  assert (G : forall j, (j <= m)%nat -> exists P', foldM (first_page_row rnd S) (seq 0 j) P = Ok P' /\ shape np cs m P' /\ forall n d, (n < L)%nat -> (d < j)%nat -> ranges P' d n).
  { induction j as [|j IH]; intros Hj; [exists P; split; [reflexivity|split; [exact SH|intros; lia]]|].
    destruct (IH ltac:(lia)) as (P1 & E1 & S1 & R1). rewrite seq_S, foldM_app, E1. cbn [bind foldM]. rewrite Nat.add_0_l.
    destruct (first_row_total np cs j P1 ltac:(lia) Hnp Hcs S1) as (P2 & E2 & S2 & R2). rewrite E2. exists P2. split; [reflexivity|]. split; [exact S2|].
    intros n d Hn Hdj. destruct (Nat.eq_dec d j) as [->|]; [apply R2; exact Hn|].
    destruct (R1 n d Hn ltac:(lia)) as (H & I & T1 & T2 & T3).
    destruct (first_row_gens _ _ _ _ _ _ _ _ _ HI S PO HN j ltac:(lia) (Hr j ltac:(lia)) P1 P2 HL E2) as [_ Q]. destruct (Q n d ltac:(left; assumption)) as (Q1 & Q2 & _).
    exists H, I. rewrite Q1, Q2. auto. }
  apply G. apply le_n.
Qed.
End First.
