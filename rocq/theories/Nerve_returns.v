(** * [mv_ss] on covers with acyclic intersections: when it returns *)
From Coq Require Import QArith.
From Verif Require Import Base ListX SortX Lin Gauss_model Gauss_arith Gauss_col Gauss_solve Gauss_bar Basis_model Basis_props PH_model PH_loop PH_lin PH_step PH_props Simp_model Spec_Simp Simp_lists Simp_diff Simp_props
  Spec_PH Spec_Rips Rips_bd Rips_chain Rips_props LC_model Spec_LC LC_props SS_model Spec_SS SS_inv SS_page SS_cech SS_glue SS_e2 SS_lift SS_zig SS_first SS_double SS_fplift
  IK_model IK_lin IK_abs IK_quot IK_mph MPH_props Spec_IK Spec_Bars Bars MPH_bars Bars_weak Bars_complex Spec_MV Spec_E2 Spec_Two Spec_Ext Ext_props Spec_Elder Ext_elder Blocks SS_rows Cover_model HP_model HP_table HP_row HP_gens HP_second HP_zero HP_pages HP_perm HP_two Two_col Two_fam HP_ext HP_diag
  IK_rng SS_rng HP_shape HP_higher HP_first HP_deg Spec_Cech Spec_Nerve Nerve_pages Nerve_tables Nerve_strict Nerve_higher Nerve_total Nerve_ext Nerve_result Bars_ends Nerve_e2 Nerve_mv Spec_Two Spec_Cover Cover_model Cover_geom Spec_Call MV_cover MV_zero MV_props.
From Coq Require Import Sorted Permutation Znumtheory Qabs.
Local Open Scope Z_scope.

Section Returns.
Variables (argsort : list Z -> list nat) (rnd : Z -> Z) (Dist : list (list Z)) (max_r max_dim p : Z)
  (IN : list (list (list nat))) (n0 : nat) (nerve : list (list simplex)).
Hypothesis HI : mv_input argsort Dist max_r max_dim p IN n0 nerve.
Hypothesis HN : pure_nerve n0 nerve.
Hypothesis Hrnd : forall x y, filtration_value Dist max_r x -> filtration_value Dist max_r y -> rnd x <= rnd y -> x <= y.
Hypothesis Hlen : (1 < length nerve)%nat.
Variable S : ss.
Hypothesis PO : page_ok argsort rnd Dist max_r max_dim p IN n0 nerve S.
Hypothesis HA : acyclic_cover p Dist max_r max_dim IN n0 nerve.
Let m := Z.to_nat max_dim.
Let Hp := mv_prime _ _ _ _ _ _ _ _ HI.
Local Notation lev n := (level n0 nerve n).
Local Notation np := (Z.to_nat (Z.min (max_dim + 2) (Z.of_nat (length nerve)))).
Let m_pos : (0 < m)%nat. Proof. pose proof (mv_max_dim _ _ _ _ _ _ _ _ HI). unfold m. lia. Qed.
Let npge : (2 <= np)%nat. Proof. pose proof (mv_max_dim _ _ _ _ _ _ _ _ HI). lia. Qed.
Let Hr d : (d < m)%nat -> forall x y, local_end n0 nerve S d x -> local_end n0 nerve S d y -> rnd x <= rnd y -> x <= y.
Proof. intros Hd x y Hx Hy. apply Hrnd; apply (end_value _ _ _ _ _ _ _ _ _ HI S PO d); auto. Qed.

(** The bars of the first page are those of the second page of the spectral sequence. *)
Lemma first_bars P1 : foldM (first_page_row rnd S) (seq 0 m) (init_pages np (1 + length nerve) m) = Ok P1 ->
  forall n d, (n < length nerve)%nat -> (d < m)%nat -> exists H, tget (h_hom P1) 1 n d = Ok H /\
    barcode p (e2_cycle p Dist IN n0 nerve d n) (e2_bounds p Dist IN n0 nerve d n) max_r (b_bars H).
Proof.
  intros E1 n d Hn Hd. assert (Hin : In d (seq 0 m)) by (apply in_seq; lia). destruct (foldM_split _ _ _ _ d Hin E1) as (l1 & l2 & s1 & s2 & El & F1 & F2 & F3).
  assert (Hl2 : forall x, In x l2 -> x <> d).
  { intros x Hx. pose proof (seq_NoDup m 0) as ND. rewrite El in ND. apply NoDup_remove_2 in ND. intros ->. apply ND. apply in_or_app. auto. }
  assert (X : tget (h_hom P1) 1 n d = tget (h_hom s2) 1 n d).
  { refine (foldM_inv _ (fun Q => tget (h_hom Q) 1 n d = tget (h_hom s2) 1 n d) _ _ s2 P1 eq_refl F3).
    intros t x t' Hx Ht Et. rewrite (first_page_row_other rnd Dist max_r max_dim Hrnd S t x t' Et) by (apply not_eq_sym; apply Hl2; exact Hx). apply Ht. }
  destruct (first_row_page _ _ _ _ _ _ _ _ _ HI S PO HN d Hd (Hr d Hd) s1 s2 ltac:(lia) F2 n Hn) as [_ (H & EH & HB)]. exists H. split; [congruence|].
  apply (e2_barcode argsort rnd Dist max_r max_dim p IN n0 nerve HI S PO d Hd (proj2 HN)). exact HB.
Qed.

Section Tables.
Variable P : pages.
Hypothesis NT : nerve_tables rnd Dist max_r max_dim p IN n0 nerve S P.
Hypothesis SH : shape np (1 + length nerve) m P.
Hypothesis RP : rep_ok (fun n => lev n <> []) P (np - 1).
Hypothesis HB : forall n H, (1 <= n < m)%nat -> (n < length nerve)%nat -> tget (h_hom P) 1 n 0 = Ok H -> rips_barcode p Dist max_r n (b_bars H).

(** The extensions at a place of row 0 are found, with a first block of the right size. *)
Definition ext_found (n : nat) : Prop := forall H, tget (h_hom P) (np - 1) n 0 = Ok H -> (0 < b_dim H)%nat -> b_dim H = length (b_bars H) ->
  exists exts, extension rnd S P np n 0 = Ok exts /\ forall o rest A, exts = o :: rest -> o = Some A -> (0 < nrows A)%nat -> nrows A = b_dim H /\ ncols A = b_dim H.

(** There is nothing to do for bars which reach [max_r]. *)
Lemma ext_long n : (1 <= n < m)%nat -> (n < length nerve)%nat -> (forall H, tget (h_hom P) (np - 1) n 0 = Ok H -> forall x, In x (b_bars H) -> max_r <= snd x) -> ext_found n.
Proof.
  intros Hn HL Hlong H EH Hpos Ld. destruct (RP n H EH Hpos) as (Fl & _ & _ & _ & R & ER & Rne & LR & FR).
  assert (Ec : copy_seq R = Ok R).
  { clear - FR. unfold copy_seq. induction FR as [|c R [(ws & Hw) _] _ IH]; cbn [mapM]; [reflexivity|]. rewrite (copy_ok ws c Hw). cbn [bind]. rewrite IH. reflexivity. }
  unfold extension. rewrite EH. cbn [bind]. unfold death_radii. rewrite Fl. cbn [bind]. rewrite ER. cbn [bind]. rewrite Ec. cbn [bind].
  destruct (mapM_total (fun idx => hS <- tget (h_hom P) (np - 1) (n - idx) (0 + idx) ;; Ok (Some (mzero (b_dim hS) (length (map snd (b_bars H)))))) (seq 0 (length R))) as (zs & Ez).
  { intros i Hi. apply in_seq in Hi. destruct (sh_hom _ _ _ _ SH (np - 1)%nat (n - i)%nat (0 + i)%nat) as (h & Eh); [pose proof npge; lia|lia|lia|]. rewrite Eh. eexists. reflexivity. }
  rewrite Ez. cbn [bind]. rewrite (po_max_r _ _ _ _ _ _ _ _ _ _ PO).
  assert (Ex : existsb (fun b => b) (map (fun d => d <? max_r) (map snd (b_bars H))) = false).
  { destruct (existsb _ _) eqn:Y; [|reflexivity]. exfalso. apply existsb_exists in Y. destruct Y as (b & Hb & ->). rewrite map_map in Hb. apply in_map_iff in Hb. destruct Hb as (x & Hx & Hin).
    specialize (Hlong H EH x Hin). apply Z.ltb_lt in Hx. lia. }
  rewrite Ex. exists zs. split; [reflexivity|]. intros o rest A -> -> _. destruct R as [|c R]; [contradiction|]. cbn [length seq mapM] in Ez. rewrite Nat.sub_0_r in Ez. change (0 + 0)%nat with 0%nat in Ez. rewrite EH in Ez. cbn [bind] in Ez.
  destruct (mapM _ (seq 1 (length R))) as [rs|]; [|discriminate]. cbn [bind] in Ez. injection Ez as <- _. split; [reflexivity|]. rewrite mzero_ncols, map_length. auto.
Qed.

Lemma page_dim_total n d : (n < length nerve)%nat -> (d < m)%nat -> exists x, page_dim S P (np - 1) n d = Ok x.
Proof.
  intros Hn Hd. unfold page_dim. destruct (Nat.eqb_spec (np - 1) 1) as [E1|E1].
  - rewrite (page_dim_rb _ _ _ _ _ _ _ _ _ HI S PO n d Hn Hd). eauto.
  - apply (sh_dim _ _ _ _ SH); lia.
Qed.

Lemma matrix_found n H : (1 <= n < m)%nat -> (n < length nerve)%nat -> ext_found n -> tget (h_hom P) (np - 1) n 0 = Ok H -> (0 < b_dim H)%nat -> b_dim H = length (b_bars H) ->
  exists E, extension_matrix rnd S P np n (repeat 0%nat (Datatypes.S n) ++ [b_dim H]) = Ok E.
Proof.
  intros Hn HL HX EH Hpos Ld. unfold extension_matrix. rewrite (po_nerve _ _ _ _ _ _ _ _ _ _ PO). rewrite last_last. set (N := b_dim H) in *.
  replace (Nat.min (n + 1) (1 + length nerve) - 1)%nat with n by lia. set (step := fun (M : mat) (n' : nat) => _).
  assert (S1 : forall l M, (forall i, In i l -> (1 <= i < n)%nat) -> foldM step l M = Ok M).
  { induction l as [|i l IH]; intros M Hl; cbn [foldM]; [reflexivity|]. pose proof (Hl i (or_introl eq_refl)) as Hi. unfold step at 1.
    destruct (page_dim_total i (n - i)) as (x & Ex); [lia|lia|]. rewrite Ex. cbn [bind].
    apply (page_dim_calm argsort rnd Dist max_r max_dim p IN n0 nerve HI HN Hrnd Hlen S PO P NT npge HA) in Ex; [|fold m; lia|lia]. subst x. cbn [Nat.ltb Nat.leb bind]. apply IH. intros i' Hi'. apply Hl. right. exact Hi'. }
  assert (Esq : seq 1 n = seq 1 (n - 1) ++ [n]) by (replace n with (Datatypes.S (n - 1)) at 1 by lia; rewrite seq_S; f_equal; f_equal; lia).
  rewrite Esq, foldM_app. rewrite S1 by (intros i Hi; apply in_seq in Hi; lia). cbn [bind foldM].
  unfold step. rewrite Nat.sub_diag. destruct (page_dim_total n 0 HL m_pos) as (x & Ex). rewrite Ex. cbn [bind]. destruct (Nat.ltb 0 x); [|cbn [bind]; eauto].
  destruct (HX H EH Hpos Ld) as (exts & EX & HS). rewrite EX. cbn [bind]. rewrite !nth_err_zeros. replace (Nat.ltb n (Datatypes.S n)) with true by (symmetry; apply Nat.ltb_lt; lia). cbn [bind].
  replace (n + 1)%nat with (Datatypes.S n) by lia. rewrite Nat.ltb_irrefl, Nat.eqb_refl. cbn [bind].
  destruct (ext_blocks argsort rnd Dist max_r max_dim p IN n0 nerve HI Hrnd Hlen S PO P NT npge n H exts EH EX) as [[-> _]|(o & rest & Eo & Hrest & _)]; [cbn; eauto|].
  specialize (HS o rest). rewrite Eo. unfold enum. cbn [length seq combine foldM fst snd]. rewrite !Nat.sub_0_r.
  assert (G : forall l M, (forall ib : nat * option mat, In ib l -> In (snd ib) rest) -> exists M', foldM (fun M (ib : nat * option mat) => match snd ib with
      | Some blk => if Nat.ltb 0 (nrows blk) then r0 <- nth_err (repeat 0%nat (Datatypes.S n) ++ [N]) (n - fst ib) ;; r1 <- nth_err (repeat 0%nat (Datatypes.S n) ++ [N]) (Datatypes.S n - fst ib) ;; set_block M r0 r1 0 N blk else Ok M
      | None => Ok M end) l M = Ok M').
  { induction l as [|[i b] l IH]; intros M Hl; cbn [foldM]; [eauto|]. cbn [snd fst]. pose proof (Hl _ (or_introl eq_refl)) as Hb. cbn [snd] in Hb.
    assert (Z : match b with Some blk => if Nat.ltb 0 (nrows blk) then r0 <- nth_err (repeat 0%nat (Datatypes.S n) ++ [N]) (n - i) ;; r1 <- nth_err (repeat 0%nat (Datatypes.S n) ++ [N]) (Datatypes.S n - i) ;; set_block M r0 r1 0 N blk else Ok M | None => Ok M end = Ok M).
    { destruct b as [A|]; [|reflexivity]. rewrite (Hrest A Hb). reflexivity. }
    rewrite Z. cbn [bind]. apply IH. intros ib Hib. apply Hl. right. exact Hib. }
  assert (B0 : exists M0, match o with Some blk => if Nat.ltb 0 (nrows blk) then r0 <- nth_err (repeat 0%nat (Datatypes.S n) ++ [N]) n ;; r1 <- nth_err (repeat 0%nat (Datatypes.S n) ++ [N]) (Datatypes.S n) ;; set_block (mzero N N) r0 r1 0 N blk else Ok (mzero N N) | None => Ok (mzero N N) end = Ok M0).
  { destruct o as [A|]; [|eauto]. destruct (Nat.ltb_spec 0 (nrows A)) as [LA|LA]; [|eauto]. destruct (HS A Eo eq_refl LA) as [X1 X2]. rewrite !nth_err_zeros. replace (Nat.ltb n (Datatypes.S n)) with true by (symmetry; apply Nat.ltb_lt; lia).
    rewrite Nat.ltb_irrefl, Nat.eqb_refl. cbn [bind]. unfold set_block. rewrite X1, X2, Nat.sub_0_r. fold N. rewrite Nat.eqb_refl. cbn [andb]. eauto. }
  destruct B0 as (M0 & B0). rewrite B0. cbn [bind]. destruct (G (combine (seq 1 (length rest)) rest) M0) as (M' & EM'); [intros [i b] Hib; apply in_combine_r in Hib; exact Hib|]. rewrite EM'. cbn [bind]. eauto.
Qed.

Theorem diagonal_found n : (1 <= n < m)%nat -> ((n < length nerve)%nat -> ext_found n /\ elder_block rnd max_dim p nerve S P n) -> exists o, diagonal rnd S P np n = Ok o.
Proof.
  intros Hn HX. unfold diagonal. rewrite (po_nerve _ _ _ _ _ _ _ _ _ _ PO). pose proof npge as Hnp.
  assert (Ed : exists dims, diagonal_dims P np n (1 + length nerve) = Ok dims).
  { unfold diagonal_dims. destruct (mapM_total (fun i => tget (h_dim P) np i (n - i)) (seq 0 (Nat.min (n + 1) (1 + length nerve)))) as (ds & Em).
    - intros i Hi. apply in_seq in Hi. apply (sh_dim _ _ _ _ SH np i (n - i)%nat); lia.
    - rewrite Em. eexists. reflexivity. }
  destruct Ed as (dims & Ed). rewrite Ed. cbn [bind]. destruct (Nat.ltb_spec 0 (last dims 0%nat)) as [Hd|Hd]; [|eauto].
  destruct (Nat.lt_ge_cases n (length nerve)) as [HL|HL].
  2:{ exfalso. assert (La : last dims 0%nat = 0%nat); [|lia]. unfold diagonal_dims in Ed. destruct (mapM _ _) as [ds|] eqn:Em; [|discriminate]. cbn [bind] in Ed. injection Ed as <-. destruct (mapM_Ok _ _ _ Em) as [L1 Hd1]. rewrite seq_length in L1.
      rewrite cumulate_zeros'; [apply (last_zeros (Datatypes.S (length ds)))|]. intros x Hx. apply (In_nth _ _ 0%nat) in Hx. destruct Hx as (k & Hk & <-). specialize (Hd1 k 0%nat 0%nat ltac:(rewrite seq_length; lia)). rewrite seq_nth in Hd1 by lia.
      destruct (Nat.lt_ge_cases k n) as [Lk|Lk].
      - pose proof (proj2 (nt_calm _ _ _ _ _ _ _ _ _ _ NT (np - 1)%nat ltac:(lia) (0 + k)%nat (n - (0 + k))%nat ltac:(lia))) as X. replace (Datatypes.S (np - 1)) with np in X by lia. apply X. exact Hd1.
      - apply (nt_out _ _ _ _ _ _ _ _ _ _ NT (np - 1)%nat (0 + k)%nat (n - (0 + k))%nat); [lia|lia|]. replace (Datatypes.S (np - 1)) with np by lia. exact Hd1. }
  destruct (HX HL) as [HE HBl]. clear HX.
  destruct (row_bars_at argsort rnd Dist max_r max_dim p IN n0 nerve HI Hrnd Hlen S PO P NT npge n HL ltac:(fold m; lia)) as (H1 & EH1 & HK). destruct (HK (np - 1)%nat ltac:(lia)) as (H & EH & ED & Ld & Pm). replace (Datatypes.S (np - 1)) with np in ED by lia.
  pose proof (HB n H1 Hn HL EH1) as RH1.
  assert (RH : rips_barcode p Dist max_r n (b_bars H)) by (apply (barcode_perm p _ _ max_r (b_bars H1)); [symmetry; exact Pm|exact RH1]).
  assert (Edims : dims = repeat 0%nat (Datatypes.S n) ++ [b_dim H]) by (apply (dims_row argsort rnd Dist max_r max_dim p IN n0 nerve HI Hrnd Hlen S PO P NT npge n H dims); auto).
  rewrite Edims in Hd |- *. rewrite last_last in Hd.
  destruct (matrix_found n H Hn HL HE EH Hd Ld) as (E1 & EE). rewrite EE. cbn [bind]. assert (Emin : Nat.min (n + 1) (1 + length nerve) = Datatypes.S n) by lia. rewrite Emin.
  destruct (mapM_total (fun i => h <- tget (h_hom P) (np - 1) i (n - i) ;; Ok (if Nat.ltb 0 (b_dim h) then b_bars h else [])) (seq 0 (Datatypes.S n))) as (bl & Ebl).
  { intros i Hi. apply in_seq in Hi. destruct (sh_hom _ _ _ _ SH (np - 1) i (n - i)%nat ltac:(lia) ltac:(lia) ltac:(lia)) as [x Ex]. rewrite Ex. eexists. reflexivity. }
  rewrite Ebl. cbn [bind].
  assert (Cbl : concat bl = b_bars H).
  { rewrite seq_S in Ebl. apply mapM_app in Ebl. destruct Ebl as (b1 & b2 & E2 & E3 & ->). cbn [Nat.add mapM] in E3. rewrite Nat.sub_diag, EH in E3. cbn [bind] in E3. apply Nat.ltb_lt in Hd. rewrite Hd in E3. injection E3 as <-.
    rewrite concat_app. cbn [concat]. rewrite app_nil_r. replace (concat b1) with (@nil bar); [reflexivity|]. symmetry. destruct (mapM_Ok _ _ _ E2) as [L1 Hb1]. rewrite seq_length in L1.
    assert (Z0 : forall x, In x b1 -> x = []).
    { intros x Hx. apply (In_nth _ _ []) in Hx. destruct Hx as (k & Hk & <-). specialize (Hb1 k 0%nat [] ltac:(rewrite seq_length; lia)). rewrite seq_nth in Hb1 by lia.
      destruct (tget (h_hom P) (np - 1) (0 + k) (n - (0 + k))) as [h|] eqn:Eh; [|discriminate]. cbn [bind] in Hb1.
      pose proof (proj1 (nt_calm _ _ _ _ _ _ _ _ _ _ NT (np - 1)%nat ltac:(lia) (0 + k)%nat (n - (0 + k))%nat ltac:(lia)) h Eh) as [X _]. rewrite X in Hb1. injection Hb1 as <-. reflexivity. }
    clear -Z0. induction b1 as [|x b1 IH]; [reflexivity|]. cbn [concat]. rewrite (Z0 x (or_introl eq_refl)). apply IH. intros y Hy. apply Z0. right. exact Hy. }
  rewrite Cbl. destruct (extension_matrix_row argsort rnd Dist max_r max_dim p IN n0 nerve HI HN Hrnd Hlen S PO P NT npge HA n H E1 Hn HL HBl EH Hd EE) as (N1 & C1 & W1 & El). specialize (El Ld).
  rewrite (po_p _ _ _ _ _ _ _ _ _ _ PO), (po_max_r _ _ _ _ _ _ _ _ _ _ PO).
  destruct (assemble_elder rnd p max_r (b_bars H) E1 Hp) as (PH & EP & HPm).
  - intros X. rewrite X in Ld. cbn in Ld. lia.
  - apply RH.
  - lia.
  - lia.
  - exact W1.
  - exact El.
  - intros x y Hx Hy. apply Hrnd; eapply rips_ends; eauto.
  - intros x y Hx Hy. apply Hrnd; eapply rips_ends; eauto.
  - rewrite EP. cbn [bind]. eauto.
Qed.
End Tables.

(** The tables of an acyclic cover, and the bars of row 0. *)
Lemma tables_found : full_nerve IN n0 nerve -> (forall d, (d <= Z.to_nat max_dim)%nat -> fine Dist max_r IN n0 d) -> exists P1 P2,
  foldM (first_page_row rnd S) (seq 0 m) (init_pages np (1 + length nerve) m) = Ok P1 /\
  foldM (fun P cp => foldM (higher_page_row rnd S cp) (flat_map (fun n => map (fun d => (n, d)) (seq 0 m)) (seq 0 cp)) P) (seq 2 (np - 2)) P1 = Ok P2 /\
  shape np (1 + length nerve) m P2 /\ nerve_tables rnd Dist max_r max_dim p IN n0 nerve S P2 /\ (forall n d, (n < length nerve)%nat -> (d < m)%nat -> ranges p P2 d n) /\ rep_ok (fun n => lev n <> []) P2 (np - 1) /\
  forall n H, (1 <= n < m)%nat -> (n < length nerve)%nat -> tget (h_hom P2) 1 n 0 = Ok H -> rips_barcode p Dist max_r n (b_bars H).
Proof.
  intros HF Hfine. destruct (pages_total argsort rnd Dist max_r max_dim p IN n0 nerve HI HN Hrnd Hlen S PO HA) as (P1 & P2 & E1 & E2 & SH & RG & RP). fold m in E1, E2, SH, RG. exists P1, P2.
  split; [exact E1|]. split; [exact E2|]. split; [exact SH|].
  destruct (nerve_first argsort rnd Dist max_r max_dim p IN n0 nerve HI HN Hrnd Hlen S PO HA P1 E1) as (First & Calm & Pr & Out).
  destruct (row_pages rnd S m (np - 2) 2 P1 P2 (le_n 2) E2 Calm Pr) as (A1 & A2 & A3 & A4). rewrite (po_nerve _ _ _ _ _ _ _ _ _ _ PO) in A3, A4. pose proof npge as Hnp.
  split; [|split; [exact RG|split; [exact RP|]]].
  - constructor.
    + intros n d Hn Hd. destruct (First n d Hn Hd) as (H & I & reps & X1 & X2 & X3 & X4 & X5). destruct (A1 1%nat n d ltac:(lia)) as (-> & -> & -> & ->). exists H, I, reps. auto.
    + intros k n Hk Hn Hm. apply A3; auto. lia.
    + exact A2.
    + intros k n d x Hk Hn Ex. destruct (A4 k n d Hn) as (_ & _ & _ & X). rewrite X in Ex. apply (Out k n d x Hk Hn Ex).
  - intros n H Hn HL EH. destruct (A1 1%nat n 0%nat ltac:(lia)) as (X & _). rewrite X in EH. destruct (first_bars P1 E1 n 0 HL m_pos) as (H' & EH' & HBs). rewrite EH in EH'. injection EH' as <-.
    apply (acyclic_e2 argsort Dist max_r max_dim p IN n0 nerve n); auto.
Qed.
End Returns.

(** If every bar of positive degree below [max_dim] reaches [max_r], then [mv_ss] returns. *)
Theorem nerve_returns argsort rnd Dist max_r max_dim p IN n0 nerve : mv_input argsort Dist max_r max_dim p IN n0 nerve -> pure_nerve n0 nerve ->
  (forall x y, filtration_value Dist max_r x -> filtration_value Dist max_r y -> rnd x <= rnd y -> x <= y) -> (1 < length nerve)%nat ->
  full_nerve IN n0 nerve -> acyclic_cover p Dist max_r max_dim IN n0 nerve -> (forall d, (d <= Z.to_nat max_dim)%nat -> fine Dist max_r IN n0 d) ->
  (forall n bars x, (1 <= n < Z.to_nat max_dim)%nat -> rips_barcode p Dist max_r n bars -> In x bars -> snd x = max_r) ->
  exists S P Hs, mv_ss argsort rnd Dist max_r max_dim p IN n0 nerve = Ok (S, P, Hs).
Proof.
  intros HI HN Hrnd Hlen HF HA Hfine Hlong. destruct (zero_page_total argsort rnd Dist max_r max_dim p IN n0 nerve HI) as (S & EZ & PO).
  destruct (tables_found argsort rnd Dist max_r max_dim p IN n0 nerve HI HN Hrnd Hlen S PO HA HF Hfine) as (P1 & P2 & E1 & E2 & SH & NT & _ & RP & HB).
  assert (Hm : (1 <= Z.to_nat max_dim)%nat) by (pose proof (mv_max_dim _ _ _ _ _ _ _ _ HI); lia).
  unfold mv_ss. rewrite EZ. cbn [bind]. rewrite (po_rows _ _ _ _ _ _ _ _ _ _ PO). rewrite E1. cbn [bind]. rewrite E2. cbn [bind].
  set (np := Z.to_nat (Z.min (max_dim + 2) (Z.of_nat (length nerve)))) in *. assert (Hnp : (2 <= np)%nat) by (unfold np; lia).
  destruct (sh_hom _ _ _ _ SH (np - 1)%nat 0%nat 0%nat ltac:(lia) ltac:(lia) ltac:(lia)) as [H0 EH0]. rewrite EH0. cbn [bind].
  destruct (mapM_total (diagonal rnd S P2 np) (seq 1 (Z.to_nat max_dim - 1))) as (O & EO).
  - intros n Hn. apply in_seq in Hn. apply (diagonal_found argsort rnd Dist max_r max_dim p IN n0 nerve HI HN Hrnd Hlen S PO HA P2 NT SH HB n); [lia|]. intros HL.
    split.
    + apply (ext_long argsort rnd Dist max_r max_dim p IN n0 nerve HI Hrnd Hlen S PO P2 SH RP HB n); [lia|exact HL|]. intros H EH x Hx.
      destruct (row_bars_at argsort rnd Dist max_r max_dim p IN n0 nerve HI Hrnd Hlen S PO P2 NT Hnp n HL ltac:(lia)) as (H1 & EH1 & HK). destruct (HK (np - 1)%nat ltac:(fold np; lia)) as (H' & EH' & _ & _ & Pm).
      fold np in EH. rewrite EH in EH'. injection EH' as <-. pose proof (HB n H1 ltac:(lia) HL EH1) as RH1. rewrite (Hlong n (b_bars H1) x ltac:(lia) RH1); [lia|]. eapply Permutation_in; eauto.
    + destruct (Nat.eq_dec n 1) as [X|X]; [rewrite X; apply (elder_one argsort rnd Dist max_r max_dim p IN n0 nerve HI HN Hrnd Hlen S PO P2 NT Hnp); lia|].
      apply (elder_high argsort rnd Dist max_r max_dim p IN n0 nerve HI HN Hrnd Hlen S P2 n PO NT); [lia|exact HL].
  - rewrite EO. do 3 eexists. reflexivity.
Qed.

(** Together with [nerve_result]. *)
Theorem nerve_long : forall argsort rnd Dist max_r max_dim p IN n0 nerve, mv_input argsort Dist max_r max_dim p IN n0 nerve -> pure_nerve n0 nerve ->
  (forall x y, filtration_value Dist max_r x -> filtration_value Dist max_r y -> rnd x <= rnd y -> x <= y) -> (1 < length nerve)%nat ->
  full_nerve IN n0 nerve -> acyclic_cover p Dist max_r max_dim IN n0 nerve -> (forall d, (d <= Z.to_nat max_dim)%nat -> fine Dist max_r IN n0 d) ->
  (forall n bars x, (1 <= n < Z.to_nat max_dim)%nat -> rips_barcode p Dist max_r n bars -> In x bars -> snd x = max_r) ->
  exists S P H0 O, mv_ss argsort rnd Dist max_r max_dim p IN n0 nerve = Ok (S, P, results H0 O) /\ length O = (Z.to_nat max_dim - 1)%nat /\
    forall d, (d < Z.to_nat max_dim)%nat -> rips_barcode p Dist max_r d (bars_in H0 O d).
Proof.
  intros argsort rnd Dist max_r max_dim p IN n0 nerve HI HN Hrnd Hlen HF HA Hfine Hlong.
  destruct (nerve_returns argsort rnd Dist max_r max_dim p IN n0 nerve HI HN Hrnd Hlen HF HA Hfine Hlong) as (S & P & Hs & E).
  destruct (nerve_result argsort rnd Dist max_r max_dim p IN n0 nerve HI HN Hrnd Hlen S P Hs HF HA Hfine E) as (H0 & O & -> & L & HB). exists S, P, H0, O. auto.
Qed.

Theorem create_nerve_long : forall argsort rnd dim pc Dist max_r max_dim max_div overlap p, cloud_call argsort rnd dim pc Dist max_r max_dim max_div p ->
  (0 < dim)%nat -> thick dim pc -> (0 <= overlap)%Q -> wide max_div overlap dim pc ->
  (forall u v e, (u < v < length pc)%nat -> dist Dist u v < max_r -> (e < dim)%nat -> (Qabs (nth e (nth u pc []) 0 - nth e (nth v pc []) 0) <= overlap)%Q) ->
  (forall pts IN n0 nerve, generate_cover (fun x => x) max_div overlap dim pc = Ok (pts, IN, (n0, nerve)) -> acyclic_cover p Dist max_r max_dim IN n0 nerve) ->
  (forall n bars x, (1 <= n < Z.to_nat max_dim)%nat -> rips_barcode p Dist max_r n bars -> In x bars -> snd x = max_r) ->
  exists S P H0 O, create_MV_ss argsort rnd (fun x => x) dim pc Dist max_r max_dim max_div overlap p = Ok (S, P, results H0 O) /\ length O = (Z.to_nat max_dim - 1)%nat /\
    forall d, (d < Z.to_nat max_dim)%nat -> rips_barcode p Dist max_r d (bars_in H0 O d).
Proof.
  intros argsort rnd dim pc Dist max_r max_dim max_div overlap p HC Hdim Ht Ho Hw Hn HA Hlong. assert (Hdiv : 1 <= max_div) by (destruct HC; lia).
  destruct (C35_total_aux max_div overlap dim pc Hdiv (cc_rect _ _ _ _ _ _ _ _ _ HC) (cc_spread _ _ _ _ _ _ _ _ _ HC)) as (pts & IN & n0 & nerve & EG).
  destruct (create_nerve_input _ _ _ _ _ _ _ _ _ _ HC Hdim Ht Ho Hw Hn _ _ _ _ EG) as (HI & HN & HF & Hfine).
  destruct (cover_inv _ _ _ _ _ _ _ _ Hdiv (cc_rect _ _ _ _ _ _ _ _ _ HC) (cc_spread _ _ _ _ _ _ _ _ _ HC) EG) as (mins & side & div & D).
  assert (Hlen : (1 < length nerve)%nat).
  { rewrite (cd_lenC _ _ _ _ _ _ _ _ _ _ _ D). destruct dim as [|dim]; [lia|]. cbn [Nat.pow]. assert (2 ^ dim <> 0)%nat by (apply Nat.pow_nonzero; lia). lia. }
  unfold create_MV_ss. rewrite EG. cbn [bind]. apply nerve_long; auto; [apply (cc_rnd _ _ _ _ _ _ _ _ _ HC)|apply (HA pts); exact EG].
Qed.
