(** * The result of [mv_ss] on a cover with acyclic intersections *)
From Coq Require Import QArith.
From Verif Require Import Base ListX SortX Lin Gauss_model Gauss_arith Gauss_col Gauss_solve Gauss_bar Basis_model Basis_props PH_model PH_loop PH_lin PH_step PH_props Simp_model Spec_Simp Simp_lists Simp_diff Simp_props
  Spec_PH Spec_Rips Rips_bd Rips_chain Rips_props LC_model Spec_LC LC_props SS_model Spec_SS SS_inv SS_page SS_cech SS_glue SS_e2 SS_lift SS_zig SS_first SS_double SS_fplift
  IK_model IK_lin IK_abs IK_quot IK_mph MPH_props Spec_IK Spec_Bars Bars MPH_bars Bars_weak Bars_complex Spec_MV Rips_bars Spec_E2 Spec_Two Spec_Ext Ext_props Spec_Elder Ext_elder Blocks SS_rows Cover_model HP_model HP_table HP_row HP_gens HP_second HP_zero HP_pages HP_perm HP_two Two_col Two_fam HP_ext HP_diag
  Spec_Cech Spec_Nerve Nerve_pages Nerve_tables Bars_ends Nerve_ext Nerve_strict Spec_Cover Cover_geom Spec_Call MV_cover MV_zero MV_props Nerve_e2 Nerve_mv.
From Coq Require Import Sorted Permutation Znumtheory Qabs.
Local Open Scope Z_scope.

(** The matrices which a lift to a page appends have the same height. *)
Lemma lift_heights rnd P n p H I Betas Bb ks o gm : (0 < b_dim H)%nat -> tget (h_hom P) 1 n 0 = Ok H -> tget (h_hom P) 2 n 0 = Ok H -> tget (h_im P) 1 n 0 = Ok (Some I) ->
  lift_loop rnd P n 0 p (1 :: 2 :: ks)%nat Betas None Bb = Ok (o, gm) -> nrows (b_coords H) = b_dim H.
Proof.
  intros Hpos E1 E2 EI E. apply Nat.ltb_lt in Hpos. cbn [lift_loop] in E. rewrite E1, EI in E. cbn [bind] in E. rewrite Hpos in E.
  match type of E with bind ?x _ = _ => destruct x as [Im1|]; [|discriminate] end. cbn [bind] in E. match type of E with bind ?x _ = _ => destruct x as [A1|]; [|discriminate] end. cbn [bind] in E.
  destruct (b_prev H) as [prev|]; [|discriminate]. destruct (mk_basis _ _ _ _ _ _ _) as [rows|]; [|discriminate]. cbn [bind] in E. destruct (b_sort rnd rows) as [[sb order]|]; [|discriminate]. cbn [bind] in E.
  destruct (take_rows_err A1 order) as [A1'|]; [|discriminate]. cbn [bind] in E. destruct (gauss_barcodes A1' _ _ _ _) as [cf|]; [|discriminate]. cbn [bind] in E.
  destruct (tget (h_im P) 2 n 0) as [Im|]; [|discriminate]. cbn [bind] in E. rewrite E2 in E. cbn [bind] in E. rewrite Hpos in E. destruct Im as [Im|]; [|discriminate].
  match type of E with bind ?x _ = _ => destruct x as [Im2|] eqn:EI2; [|discriminate] end. cbn [bind] in E. cbn [nrows] in E.
  destruct (Nat.eqb_spec (nrows Im2) (b_dim H)) as [Eq|]; [|discriminate]. clear E. rewrite <- Eq.
  destruct (Nat.ltb 0 (b_dim Im)); [|injection EI2 as <-; reflexivity]. destruct (Nat.eqb_spec (nrows (b_coords Im)) (nrows (b_coords H))) as [X|]; [|discriminate]. injection EI2 as <-. cbn [mappend nrows]. symmetry. exact X.
Qed.

Section Result.
Variables (argsort : list Z -> list nat) (rnd : Z -> Z) (Dist : list (list Z)) (max_r max_dim p : Z)
  (IN : list (list (list nat))) (n0 : nat) (nerve : list (list simplex)).
Hypothesis HI : mv_input argsort Dist max_r max_dim p IN n0 nerve.
Hypothesis HN : pure_nerve n0 nerve.
Hypothesis Hrnd : forall x y, filtration_value Dist max_r x -> filtration_value Dist max_r y -> rnd x <= rnd y -> x <= y.
Hypothesis Hlen : (1 < length nerve)%nat.
Let m := Z.to_nat max_dim.
Local Notation np := (Z.to_nat (Z.min (max_dim + 2) (Z.of_nat (length nerve)))).

(** An extension is computed for a class of row 0 in column [2] or later only when its bar reaches [max_r]. *)
Lemma no_short S P n H exts : page_ok argsort rnd Dist max_r max_dim p IN n0 nerve S -> nerve_tables rnd Dist max_r max_dim p IN n0 nerve S P -> (2 <= n < m)%nat -> (n < length nerve)%nat ->
  tget (h_hom P) (np - 1) n 0 = Ok H -> (0 < b_dim H)%nat -> extension rnd S P np n 0 = Ok exts ->
  (exts = [] /\ exists reps0, tget (h_reps P) (np - 1) n 0 = Ok reps0 /\ copy_seq reps0 = Ok []) \/
  exists rest, exts = Some (mzero (b_dim H) (length (b_bars H))) :: rest /\ forall x, In x (b_bars H) -> max_r <= snd x.
Proof.
  intros PO NT Hn HL EH Hpos EX. assert (Hnp : (3 <= np)%nat) by (unfold m in Hn; lia).
  destruct (ext_blocks argsort rnd Dist max_r max_dim p IN n0 nerve HI Hrnd Hlen S PO P NT ltac:(lia) n H _ EH EX) as [X|(o & rs & X & _ & Y)]; [left; exact X|]. right.
  destruct Y as [[Y1 Y]|[_ Y]]; [exists rs; subst; auto|]. exfalso. destruct Y as (reps0 & c & cs & c' & B & lf & gm & _ & _ & _ & _ & EL).
  destruct (nt_first _ _ _ _ _ _ _ _ _ _ NT n 0%nat HL ltac:(fold m; lia)) as (H1 & I & reps & EH1 & EI1 & _ & _ & G1).
  destruct (row_bars_at argsort rnd Dist max_r max_dim p IN n0 nerve HI Hrnd Hlen S PO P NT ltac:(lia) n HL ltac:(fold m; lia)) as (H1' & E1 & HK). rewrite EH1 in E1. injection E1 as <-.
  destruct (HK (np - 1)%nat ltac:(lia)) as (H' & E' & _ & Ld & Pm). rewrite EH in E'. injection E' as <-.
  assert (Hpos1 : (0 < b_dim H1)%nat) by (rewrite (ge_dim _ _ _ _ _ _ _ _ _ _ _ _ G1), <- (Permutation_length Pm), <- Ld; exact Hpos).
  destruct (nt_step _ _ _ _ _ _ _ _ _ _ NT 2%nat n ltac:(lia) HL ltac:(fold m; lia)) as [_ Q2]. destruct (Q2 ltac:(lia)) as (Ha & Hb & F1 & F2 & _ & _ & F5 & _).
  cbn [Nat.sub] in F1. rewrite EH1 in F1. injection F1 as <-. rewrite (F5 Hpos1) in F2.
  unfold lift_to_page in EL. replace (np - 1)%nat with (Datatypes.S (Datatypes.S (np - 3))) in EL by lia. cbn [seq] in EL.
  pose proof (lift_heights _ _ _ _ _ _ _ _ _ _ _ Hpos1 EH1 F2 EI1 EL) as Eq.
  destruct (ge_over _ _ _ _ _ _ _ _ _ _ _ _ G1 Hpos1) as (_ & _ & _ & _ & Er & _). cbn [row_base b_dim] in Er. rewrite Er in Eq.
  destruct n as [|n]; [lia|]. assert (b_dim H1 < length (row_bars n0 nerve S 0 (Datatypes.S n)))%nat; [|lia].
  apply (strict argsort rnd Dist max_r max_dim p IN n0 nerve HI S PO (proj2 HN) n H1 I reps HL G1). intros X'. rewrite X' in Eq. cbn in Eq. lia.
Qed.

Lemma elder_high S P n : page_ok argsort rnd Dist max_r max_dim p IN n0 nerve S -> nerve_tables rnd Dist max_r max_dim p IN n0 nerve S P -> (2 <= n < m)%nat -> (n < length nerve)%nat ->
  elder_block rnd max_dim p nerve S P n.
Proof.
  intros PO NT Hn HL H exts o rest A EH Hpos EX -> ->.
  destruct (no_short S P n H _ PO NT Hn HL EH Hpos EX) as [[X _]|(rs & X & _)]; [discriminate|]. injection X as -> _. apply zero_elder.
Qed.

(** There are representatives wherever there are classes. *)
Lemma reps_some S P n k : page_ok argsort rnd Dist max_r max_dim p IN n0 nerve S -> nerve_tables rnd Dist max_r max_dim p IN n0 nerve S P -> (n < m)%nat -> (n < length nerve)%nat -> (1 <= k < np)%nat ->
  exists H, tget (h_hom P) k n 0 = Ok H /\ ((0 < b_dim H)%nat -> exists R, tget (h_reps P) k n 0 = Ok R /\ R <> []).
Proof.
  intros PO NT Hn HL. induction k as [|k IH]; intros Hk; [lia|]. destruct k as [|k].
  { destruct (nt_first _ _ _ _ _ _ _ _ _ _ NT n 0%nat HL ltac:(fold m; lia)) as (H1 & I & reps & EH1 & _ & _ & ER & G1). exists H1. split; [exact EH1|]. intros Hpos. exists reps.
    destruct (ge_reps _ _ _ _ _ _ _ _ _ _ _ _ G1 Hpos) as (rep & rest & -> & _). split; [exact ER|discriminate]. }
  destruct (IH ltac:(lia)) as (H & EH & EP). clear IH. destruct (nt_step _ _ _ _ _ _ _ _ _ _ NT (Datatypes.S (Datatypes.S k)) n ltac:(lia) HL ltac:(fold m; lia)) as [Q1 Q2].
  destruct (Nat.lt_ge_cases n (Datatypes.S (Datatypes.S k))) as [L|L].
  - destruct (Q1 L) as (Ha & Hb & I' & R' & F1 & F2 & _ & _ & _ & F6 & F7 & F8). rewrite Nat.sub_succ, Nat.sub_0_r in F1, F8. rewrite EH in F1. injection F1 as <-. exists Hb. split; [exact F2|].
    intros Hpos. destruct (Nat.eq_0_gt_0_cases (b_dim H)) as [X|X]; [destruct (F7 X) as [-> _]; lia|]. destruct (F8 X) as (_ & R & ER & EM). destruct (EP X) as (R2 & ER2 & NR). rewrite ER in ER2. injection ER2 as <-.
    exists R'. split; [exact F6|]. intros ->. apply mapM_Ok in EM. destruct EM as [LM _]. destruct R; [congruence|discriminate].
  - destruct (Q2 L) as (Ha & Hb & F1 & F2 & _ & F4 & F5 & F6). rewrite Nat.sub_succ, Nat.sub_0_r in F1. rewrite EH in F1. injection F1 as <-. exists Hb. split; [exact F2|]. intros Hpos.
    destruct (Nat.eq_0_gt_0_cases (b_dim H)) as [X|X]; [destruct (F4 X) as [Y _]; lia|]. apply F6. exact X.
Qed.

(** When [mv_ss] returns, the classes of row 0 in column [2] or later reach [max_r]. *)
Lemma high_reach S P n o H1 : page_ok argsort rnd Dist max_r max_dim p IN n0 nerve S -> nerve_tables rnd Dist max_r max_dim p IN n0 nerve S P -> (2 <= n < m)%nat -> (n < length nerve)%nat ->
  diagonal rnd S P np n = Ok o -> tget (h_hom P) 1 n 0 = Ok H1 -> forall x, In x (b_bars H1) -> max_r <= snd x.
Proof.
  intros PO NT Hn HL E EH1 x Hx. assert (Hnp : (3 <= np)%nat) by (unfold m in Hn; lia).
  destruct (row_bars_at argsort rnd Dist max_r max_dim p IN n0 nerve HI Hrnd Hlen S PO P NT ltac:(lia) n HL ltac:(fold m; lia)) as (H1' & E1 & HK). rewrite EH1 in E1. injection E1 as <-.
  destruct (HK (np - 1)%nat ltac:(lia)) as (H & EH & ED & Ld & Pm). destruct (HK (np - 2)%nat ltac:(lia)) as (H' & _ & ED' & Ld' & Pm').
  replace (Datatypes.S (np - 1)) with np in ED by lia. replace (Datatypes.S (np - 2)) with (np - 1)%nat in ED' by lia.
  assert (Hp1 : (0 < length (b_bars H1))%nat) by (destruct (b_bars H1); [destruct Hx|cbn; lia]).
  assert (Hpos : (0 < b_dim H)%nat) by (rewrite Ld, (Permutation_length Pm); exact Hp1). assert (Hpos' : (0 < b_dim H')%nat) by (rewrite Ld', (Permutation_length Pm'); exact Hp1).
  destruct (diagonal_extension argsort rnd Dist max_r max_dim p IN n0 nerve HI Hrnd Hlen S PO P NT ltac:(lia) n H H' o ltac:(fold m; lia) HL Hnp ED Hpos ED' Hpos' E) as (exts & EX).
  destruct (reps_some S P n (np - 1) PO NT ltac:(lia) HL ltac:(lia)) as (H'' & EH'' & ER). rewrite EH in EH''. injection EH'' as <-. destruct (ER Hpos) as (R & EQ & NR).
  destruct (no_short S P n H exts PO NT Hn HL EH Hpos EX) as [(_ & R0 & EQ' & EC)|(rest & _ & Y)].
  - rewrite EQ in EQ'. injection EQ' as <-. unfold copy_seq in EC. apply mapM_Ok in EC. destruct EC as [LC _]. destruct R; [congruence|discriminate].
  - apply Y. apply (Permutation_in _ (Permutation_sym Pm)). exact Hx.
Qed.

Theorem nerve_result S P Hs : full_nerve IN n0 nerve -> acyclic_cover p Dist max_r max_dim IN n0 nerve -> (forall d, (d <= Z.to_nat max_dim)%nat -> fine Dist max_r IN n0 d) ->
  mv_ss argsort rnd Dist max_r max_dim p IN n0 nerve = Ok (S, P, Hs) ->
  exists H0 O, Hs = results H0 O /\ length O = (Z.to_nat max_dim - 1)%nat /\ forall d, (d < Z.to_nat max_dim)%nat -> rips_barcode p Dist max_r d (bars_in H0 O d).
Proof.
  intros HF HA Hf E. pose proof (mv_max_dim _ _ _ _ _ _ _ _ HI) as Hmd. assert (Hnp : (2 <= np)%nat) by lia.
  destruct (nerve_tables_ok _ _ _ _ _ _ _ _ _ HI HN Hrnd Hlen S P Hs HA E) as (PO & NT & H0 & O & EO & EHs).
  destruct (mv_nerve_page _ _ _ _ _ _ _ _ _ _ _ _ HI HN Hrnd HF HA Hf E) as [PG1 PG2].
  exists H0, O. split; [exact EHs|]. destruct (mapM_Ok _ _ _ EO) as [LO HO]. rewrite seq_length in LO. split; [exact LO|]. intros [|d] Hd; cbn [bars_in].
  - destruct (mv_degree_zero argsort rnd Dist max_r max_dim p IN n0 nerve S P Hs HI HN Hrnd (Hf 0%nat ltac:(lia)) (Hf 1%nat ltac:(lia))) as (H0' & Hs' & E' & R); [|exact E|].
    + assert (K : forall a b q, (a < b)%nat -> (b < n0)%nat -> In q (ins_of IN 0 a) -> In q (ins_of IN 0 b) -> In [a; b] (level n0 nerve 1)).
      { intros a b q Hab Hb Ha Hqb. apply (HF 1%nat [a; b] q); [reflexivity|repeat constructor; lia|]. intros v [<-|[<-|[]]]; split; auto; lia. }
      intros a b q Ha Hb Hqa Hqb. destruct (lt_eq_lt_dec a b) as [[L|L]|L].
      * apply (linked_step _ _ _ _ _ a b); [constructor|exact Hqa|exact Hqb|left; apply (K a b q); auto].
      * rewrite L. constructor.
      * apply (linked_step _ _ _ _ _ a b); [constructor|exact Hqa|exact Hqb|right; apply (K b a q); auto].
    + rewrite EHs in E'. injection E' as <- _. exact R.
  - specialize (HO d 0%nat None ltac:(rewrite seq_length; lia)). rewrite seq_nth in HO by lia. cbn [Nat.add] in HO. set (n := Datatypes.S d) in *.
    destruct (Nat.lt_ge_cases n (length nerve)) as [L|L].
    + apply (diagonal_row argsort rnd Dist max_r max_dim p IN n0 nerve HI HN Hrnd Hlen S PO P NT Hnp HA n); [unfold n; lia|exact L| | |exact HO].
      * destruct (Nat.eq_dec n 1) as [X|X]; [rewrite X; apply (elder_one argsort rnd Dist max_r max_dim p IN n0 nerve HI HN Hrnd Hlen S PO P NT Hnp); lia|]. apply elder_high; auto; unfold m, n in *; lia.
      * intros H EH. destruct (PG1 n 0%nat L ltac:(lia)) as (H' & EH' & _ & R). rewrite EH in EH'. injection EH' as <-. apply R; [reflexivity|unfold n; lia].
    + rewrite (diagonal_beyond argsort rnd Dist max_r max_dim p IN n0 nerve HI Hrnd Hlen S PO P NT Hnp n _ ltac:(unfold n; lia) L HO). apply PG2; unfold n; lia.
Qed.

(** On such a cover [mv_ss] returns only if every bar of degree two or more, below [max_dim], reaches [max_r]. *)
Theorem nerve_reach S P Hs : full_nerve IN n0 nerve -> acyclic_cover p Dist max_r max_dim IN n0 nerve -> (forall d, (d <= Z.to_nat max_dim)%nat -> fine Dist max_r IN n0 d) ->
  mv_ss argsort rnd Dist max_r max_dim p IN n0 nerve = Ok (S, P, Hs) ->
  forall n bars x, (2 <= n < Z.to_nat max_dim)%nat -> rips_barcode p Dist max_r n bars -> In x bars -> snd x = max_r.
Proof.
  intros HF HA Hf E n bars x Hn HB Hx. fold m in Hn. pose proof (mv_prime _ _ _ _ _ _ _ _ HI) as Hp. pose proof (proj1 HB x Hx) as Hle.
  destruct (nerve_tables_ok _ _ _ _ _ _ _ _ _ HI HN Hrnd Hlen S P Hs HA E) as (PO & NT & H0 & O & EO & _).
  destruct (mv_nerve_page _ _ _ _ _ _ _ _ _ _ _ _ HI HN Hrnd HF HA Hf E) as [PG1 PG2].
  assert (U : forall b', rips_barcode p Dist max_r n b' -> Permutation bars b') by (intros b' HB'; refine (barcode_unique p Hp _ _ max_r bars b' _ HB HB'); intros r _; apply s_bounds_sub; destruct Hp; lia).
  destruct (mapM_Ok _ _ _ EO) as [LO HO]. rewrite seq_length in LO. specialize (HO (n - 1)%nat 0%nat None ltac:(rewrite seq_length; fold m; lia)). rewrite seq_nth in HO by (fold m; lia). replace (1 + (n - 1))%nat with n in HO by lia.
  destruct (Nat.lt_ge_cases n (length nerve)) as [L|L].
  - destruct (PG1 n 0%nat L ltac:(fold m; lia)) as (H & EH & _ & R). specialize (R eq_refl ltac:(lia)).
    apply (Permutation_in _ (U _ R)) in Hx. pose proof (high_reach S P n _ H PO NT Hn L HO EH x Hx). lia.
  - specialize (PG2 n). apply (Permutation_in _ (U [] (PG2 ltac:(fold m; lia) ltac:(lia)))) in Hx. destruct Hx.
Qed.

Theorem nerve_short n bars x : full_nerve IN n0 nerve -> acyclic_cover p Dist max_r max_dim IN n0 nerve -> (forall d, (d <= Z.to_nat max_dim)%nat -> fine Dist max_r IN n0 d) ->
  (2 <= n < Z.to_nat max_dim)%nat -> rips_barcode p Dist max_r n bars -> In x bars -> snd x < max_r ->
  exists e, mv_ss argsort rnd Dist max_r max_dim p IN n0 nerve = Err e.
Proof.
  intros HF HA Hf Hn HB Hx Hs. destruct (mv_ss _ _ _ _ _ _ _ _ _) as [[[S P] Hs']|e] eqn:E; [|exists e; reflexivity]. exfalso.
  pose proof (nerve_reach S P Hs' HF HA Hf E n bars x Hn HB Hx). lia.
Qed.
End Result.

(** ** [create_MV_ss] *)
Lemma create_nerve_call : forall argsort rnd dim pc Dist max_r max_dim max_div overlap p R, cloud_call argsort rnd dim pc Dist max_r max_dim max_div p ->
  (0 < dim)%nat -> thick dim pc -> (0 <= overlap)%Q -> wide max_div overlap dim pc ->
  (forall u v e, (u < v < length pc)%nat -> dist Dist u v < max_r -> (e < dim)%nat -> (Qabs (nth e (nth u pc []) 0 - nth e (nth v pc []) 0) <= overlap)%Q) ->
  (forall pts IN n0 nerve, generate_cover (fun x => x) max_div overlap dim pc = Ok (pts, IN, (n0, nerve)) -> acyclic_cover p Dist max_r max_dim IN n0 nerve) ->
  create_MV_ss argsort rnd (fun x => x) dim pc Dist max_r max_dim max_div overlap p = Ok R ->
  exists IN n0 nerve, mv_input argsort Dist max_r max_dim p IN n0 nerve /\ pure_nerve n0 nerve /\ (1 < length nerve)%nat /\ full_nerve IN n0 nerve /\ acyclic_cover p Dist max_r max_dim IN n0 nerve /\
    (forall d, fine Dist max_r IN n0 d) /\ mv_ss argsort rnd Dist max_r max_dim p IN n0 nerve = Ok R.
Proof.
  intros argsort rnd dim pc Dist max_r max_dim max_div overlap p R HC Hdim Ht Ho Hw Hn HA E. unfold create_MV_ss in E.
  destruct (generate_cover _ _ _ _ _) as [[[pts IN] [n0 nerve]]|] eqn:EG; [|discriminate]. cbn [bind] in E.
  destruct (create_nerve_input _ _ _ _ _ _ _ _ _ _ HC Hdim Ht Ho Hw Hn _ _ _ _ EG) as (HI & HN & HF & Hfine).
  assert (Hdiv : 1 <= max_div) by (destruct HC; lia).
  destruct (cover_inv _ _ _ _ _ _ _ _ Hdiv (cc_rect _ _ _ _ _ _ _ _ _ HC) (cc_spread _ _ _ _ _ _ _ _ _ HC) EG) as (mins & side & div & D).
  assert (Hlen : (1 < length nerve)%nat).
  { rewrite (cd_lenC _ _ _ _ _ _ _ _ _ _ _ D). destruct dim as [|dim]; [lia|]. cbn [Nat.pow]. assert (2 ^ dim <> 0)%nat by (apply Nat.pow_nonzero; lia). lia. }
  exists IN, n0, nerve. do 4 (split; [assumption|]). split; [apply (HA pts); reflexivity|]. split; assumption.
Qed.

Theorem create_nerve_result : forall argsort rnd dim pc Dist max_r max_dim max_div overlap p S P Hs, cloud_call argsort rnd dim pc Dist max_r max_dim max_div p ->
  (0 < dim)%nat -> thick dim pc -> (0 <= overlap)%Q -> wide max_div overlap dim pc ->
  (forall u v e, (u < v < length pc)%nat -> dist Dist u v < max_r -> (e < dim)%nat -> (Qabs (nth e (nth u pc []) 0 - nth e (nth v pc []) 0) <= overlap)%Q) ->
  (forall pts IN n0 nerve, generate_cover (fun x => x) max_div overlap dim pc = Ok (pts, IN, (n0, nerve)) -> acyclic_cover p Dist max_r max_dim IN n0 nerve) ->
  create_MV_ss argsort rnd (fun x => x) dim pc Dist max_r max_dim max_div overlap p = Ok (S, P, Hs) ->
  exists H0 O, Hs = results H0 O /\ length O = (Z.to_nat max_dim - 1)%nat /\ forall d, (d < Z.to_nat max_dim)%nat -> rips_barcode p Dist max_r d (bars_in H0 O d).
Proof.
  intros argsort rnd dim pc Dist max_r max_dim max_div overlap p S P Hs HC Hdim Ht Ho Hw Hn HA E.
  destruct (create_nerve_call _ _ _ _ _ _ _ _ _ _ _ HC Hdim Ht Ho Hw Hn HA E) as (IN & n0 & nerve & HI & HN & Hlen & HF & HA' & Hf & E').
  apply (nerve_result argsort rnd Dist max_r max_dim p IN n0 nerve HI HN (cc_rnd _ _ _ _ _ _ _ _ _ HC) Hlen S P Hs HF); auto.
Qed.

Theorem create_nerve_short : forall argsort rnd dim pc Dist max_r max_dim max_div overlap p n bars x, cloud_call argsort rnd dim pc Dist max_r max_dim max_div p ->
  (0 < dim)%nat -> thick dim pc -> (0 <= overlap)%Q -> wide max_div overlap dim pc ->
  (forall u v e, (u < v < length pc)%nat -> dist Dist u v < max_r -> (e < dim)%nat -> (Qabs (nth e (nth u pc []) 0 - nth e (nth v pc []) 0) <= overlap)%Q) ->
  (forall pts IN n0 nerve, generate_cover (fun x => x) max_div overlap dim pc = Ok (pts, IN, (n0, nerve)) -> acyclic_cover p Dist max_r max_dim IN n0 nerve) ->
  (2 <= n < Z.to_nat max_dim)%nat -> rips_barcode p Dist max_r n bars -> In x bars -> snd x < max_r ->
  exists e, create_MV_ss argsort rnd (fun x => x) dim pc Dist max_r max_dim max_div overlap p = Err e.
Proof.
  intros argsort rnd dim pc Dist max_r max_dim max_div overlap p n bars x HC Hdim Ht Ho Hw Hn HA Hd HB Hx Hs.
  destruct (create_MV_ss _ _ _ _ _ _ _ _ _ _ _) as [[[S P] Hs']|e] eqn:E; [|exists e; reflexivity]. exfalso.
  destruct (create_nerve_call _ _ _ _ _ _ _ _ _ _ _ HC Hdim Ht Ho Hw Hn HA E) as (IN & n0 & nerve & HI & HN & Hlen & HF & HA' & Hf & E').
  pose proof (nerve_reach argsort rnd Dist max_r max_dim p IN n0 nerve HI HN (cc_rnd _ _ _ _ _ _ _ _ _ HC) Hlen S P Hs' HF HA' (fun d _ => Hf d) E' n bars x Hd HB Hx). lia.
Qed.
