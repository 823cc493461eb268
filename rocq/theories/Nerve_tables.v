(** * The tables of a spectral sequence in which only row 0 has classes *)
From Coq Require Import QArith.
From Verif Require Import Base ListX SortX Lin Gauss_model Gauss_arith Gauss_solve Basis_model Basis_props PH_model PH_loop PH_lin PH_step PH_props Simp_model Spec_Simp Simp_lists Simp_diff Simp_props
  Spec_PH Spec_Rips Rips_bd Rips_chain Rips_props LC_model Spec_LC LC_props SS_model Spec_SS SS_inv SS_page SS_cech SS_lift SS_zig SS_first SS_double SS_fplift SS_e2
  IK_model IK_lin IK_abs IK_quot IK_mph MPH_props Spec_IK Spec_Bars Bars MPH_bars Bars_weak Bars_complex Spec_E2 Spec_Cech Spec_Nerve Blocks SS_rows Cover_model HP_model HP_table HP_row HP_gens HP_second HP_zero HP_pages
  HP_two Two_col Nerve_pages.
From Coq Require Import Sorted Permutation Znumtheory.
Local Open Scope Z_scope.

Section Tables.
Variables (argsort : list Z -> list nat) (rnd : Z -> Z) (Dist : list (list Z)) (max_r max_dim p : Z)
  (IN : list (list (list nat))) (n0 : nat) (nerve : list (list simplex)).
Hypothesis HI : mv_input argsort Dist max_r max_dim p IN n0 nerve.
Hypothesis HN : pure_nerve n0 nerve.
Hypothesis Hrnd : forall x y, filtration_value Dist max_r x -> filtration_value Dist max_r y -> rnd x <= rnd y -> x <= y.
Hypothesis Hlen : (1 < length nerve)%nat.
Let m := Z.to_nat max_dim.
Let Hp := mv_prime _ _ _ _ _ _ _ _ HI.
Local Notation np := (Z.to_nat (Z.min (max_dim + 2) (Z.of_nat (length nerve)))).

Lemma level_out n : (length nerve <= n)%nat -> level n0 nerve n = [].
Proof.
  intros H. destruct (Nat.eq_dec n (length nerve)) as [->|Hne]; [apply (proj2 HN)|]. unfold level. destruct n as [|n]; [lia|]. rewrite nth_overflow by lia. reflexivity.
Qed.

(** With acyclic intersections the rows above 0 have no bars. *)
Lemma acyclic_rows S d n : page_ok argsort rnd Dist max_r max_dim p IN n0 nerve S -> acyclic_cover p Dist max_r max_dim IN n0 nerve -> (1 <= d < m)%nat -> row_bars n0 nerve S d n = [].
Proof.
  intros PO HA Hd. assert (Hd' : (d < m)%nat) by lia. pose proof (fam_pb _ _ _ _ _ _ _ _ _ HI S PO d Hd' (proj2 HN) n) as PB1.
  destruct (row_bars n0 nerve S d n) as [|x l] eqn:E; [reflexivity|]. exfalso. pose proof (pb_bar p max_r _ _ _ _ PB1 0%nat ltac:(cbn; lia)) as Bar. destruct PB1 as (_ & HQ & _).
  destruct (HQ (bbirth (x :: l) 0) ltac:(lia)) as (HQ1 & _ & HQ3). assert (Z1 : fam_cycle p Dist IN n0 nerve S d n (bbirth (x :: l) 0) (fam_gen n0 nerve S d n 0)) by (apply HQ1; cbn [length]; lia). destruct Z1 as [O1 O2].
  assert (X : 1 mod p = 0); [|rewrite Z.mod_1_l in X by (apply prime_ge_2 in Hp; lia); discriminate].
  apply (HQ3 (fun k => if Nat.eqb k 0 then 1 else 0)) with (k := 0%nat); [| |cbn [length]; lia].
  - intros [|k] Hk; [exfalso; apply Hk; cbn [length]; lia|reflexivity].
  - refine (sub_ext p _ (fam_gen n0 nerve S d n 0) _ _ _ _); [apply (fam_bounds_sub _ _ _ _ _ _ _ _ HI)| |].
    + intros y. cbn [length]. rewrite (Zsum_single (Datatypes.S (length l)) 0 _ ltac:(lia)) by (intros k Hk Hne; destruct k; [lia|cbn; ring]). cbn [Nat.eqb]. ring.
    + split; [exact O1|]. intros k Hk. assert (L1 : (n < length nerve)%nat) by (destruct (Nat.lt_ge_cases n (length nerve)) as [H|H]; [exact H|]; exfalso; rewrite (level_out n H) in Hk; cbn in Hk; lia).
      specialize (O2 k Hk). apply (bounds_back _ _ _ _ _ _ _ _ _ HI S PO n k L1 Hk d); [lia|fold m; lia|apply O2|].
      apply HA; [exact Hk|fold m; lia|lia|]. apply (push_cycle _ _ _ _ _ _ _ _ _ HI S PO n k L1 Hk d); [fold m; lia|exact O2].
Qed.
(** Components are born at 0. *)
Lemma zero_births S n x : page_ok argsort rnd Dist max_r max_dim p IN n0 nerve S -> (0 < m)%nat -> In x (row_bars n0 nerve S 0 n) -> fst x = 0.
Proof.
  intros PO Hm Hx. unfold row_bars in Hx. apply in_concat in Hx. destruct Hx as (l & Hl & Hx). apply in_map_iff in Hl. destruct Hl as (k & <- & Hk). apply in_seq in Hk.
  assert (Hn : (n < length nerve)%nat) by (destruct (Nat.lt_ge_cases n (length nerve)) as [H|H]; [exact H|]; rewrite (level_out n H) in Hk; cbn in Hk; lia).
  destruct (loc_ok _ _ _ _ _ _ _ _ _ S PO n k Hn ltac:(lia)) as [R OK].
  pose proof (lo_valid _ _ _ _ _ _ _ _ OK) as VC. pose proof (lo_ph _ _ _ _ _ _ _ _ OK) as PH. unfold hom_of in Hx. apply (In_nth _ _ (0, 0)) in Hx. destruct Hx as (h & Hh & <-).
  destruct (C19_aux rnd p max_r _ _ R _ Hp VC PH 0%nat h ltac:(lia) Hh) as (_ & i & Hi & E & _). unfold bbirth in E. rewrite <- E. apply (vc_zero _ _ _ _ _ VC). exact Hi.
Qed.

Lemma gens_empty S d n H I reps : (d < m)%nat -> row_bars n0 nerve S d n = [] -> gens Dist max_r p IN n0 nerve S d n H I reps -> b_dim H = 0%nat.
Proof.
  intros Hd Z0 GE. destruct (Nat.eq_dec (b_dim H) 0) as [|Hpos]; [auto|]. exfalso. pose proof (ge_wb _ _ _ _ _ _ _ _ _ _ _ _ GE) as PB1. pose proof (ge_dim _ _ _ _ _ _ _ _ _ _ _ _ GE) as Ld.
  pose proof (wb_bar p max_r _ _ _ _ PB1 0%nat ltac:(lia)) as Bar. destruct PB1 as (_ & HQ & _). destruct (HQ (bbirth (b_bars H) 0) ltac:(lia)) as (_ & _ & HQ3).
  specialize (HQ3 (fun k => if Nat.eqb k 0 then 1 else 0)).
  assert (X : 1 mod p = 0); [|rewrite Z.mod_1_l in X by (apply prime_ge_2 in Hp; lia); discriminate].
  apply (HQ3) with (k := 0%nat); [| |lia].
  - intros [|k] Hk; [exfalso; apply Hk; lia|reflexivity].
  - apply (subs_zero p Hp); [apply (page2_bounds_sub _ _ _ _ _ _ _ _ HI S d n _ Hd)|]. intros x. apply cong_eq. apply Zsum_0. intros k Hk.
    replace (fam_comb n0 nerve S d n _ x) with 0; [ring|]. unfold fam_comb. rewrite Z0. reflexivity.
Qed.

(** ** The tables *)
Record nerve_tables (S : ss) (P : pages) : Prop := {
  nt_first : forall n d, (n < length nerve)%nat -> (d < m)%nat -> exists H I reps, tget (h_hom P) 1 n d = Ok H /\ tget (h_im P) 1 n d = Ok (Some I) /\
     tget (h_dim P) 2 n d = Ok (b_dim H) /\ tget (h_reps P) 1 n d = Ok reps /\ gens Dist max_r p IN n0 nerve S d n H I reps;
  nt_step : forall k n, (2 <= k < np)%nat -> (n < length nerve)%nat -> (n < m)%nat -> nst rnd P k n;
  nt_calm : forall k, (1 <= k)%nat -> calm P k;
  nt_out : forall k n d x, (1 <= k)%nat -> (length nerve <= n)%nat -> tget (h_dim P) (Datatypes.S k) n d = Ok x -> x = 0%nat
}.

Section First.
Variable S : ss.
Hypothesis PO : page_ok argsort rnd Dist max_r max_dim p IN n0 nerve S.
Hypothesis HA : acyclic_cover p Dist max_r max_dim IN n0 nerve.
Let npge : (2 <= np)%nat. Proof. pose proof (mv_max_dim _ _ _ _ _ _ _ _ HI). lia. Qed.

Lemma nerve_first P1 : foldM (first_page_row rnd S) (seq 0 m) (init_pages np (1 + length nerve) m) = Ok P1 ->
  (forall n d, (n < length nerve)%nat -> (d < m)%nat -> exists H I reps, tget (h_hom P1) 1 n d = Ok H /\ tget (h_im P1) 1 n d = Ok (Some I) /\
     tget (h_dim P1) 2 n d = Ok (b_dim H) /\ tget (h_reps P1) 1 n d = Ok reps /\ gens Dist max_r p IN n0 nerve S d n H I reps) /\
  (forall k, (1 <= k)%nat -> calm P1 k) /\ (forall k, (1 <= k)%nat -> row_proper P1 k) /\
  (forall k n d x, (1 <= k)%nat -> (length nerve <= n)%nat -> tget (h_dim P1) (Datatypes.S k) n d = Ok x -> x = 0%nat).
Proof.
  intros E1. set (N := np) in *. set (I0 := init_pages N (1 + length nerve) m) in *.
  assert (Hr : forall d, (d < m)%nat -> forall x y, local_end n0 nerve S d x -> local_end n0 nerve S d y -> rnd x <= rnd y -> x <= y).
  { intros d Hd x y Hx Hy. apply Hrnd; apply (end_value _ _ _ _ _ _ _ _ _ HI S PO d); auto. }
  assert (HL : (0 < length nerve)%nat) by lia.
  assert (G : forall l P0 P1, (forall d, In d l -> (d < m)%nat) -> foldM (first_page_row rnd S) l P0 = Ok P1 ->
    (forall n d, ~ In d l \/ (length nerve <= n)%nat -> tget (h_hom P1) 1 n d = tget (h_hom P0) 1 n d /\ tget (h_im P1) 1 n d = tget (h_im P0) 1 n d /\
      tget (h_dim P1) 2 n d = tget (h_dim P0) 2 n d /\ tget (h_reps P1) 1 n d = tget (h_reps P0) 1 n d)).
  { induction l as [|x l IH]; intros Q0 Q1 Hl Ef n d Hnd; cbn [foldM] in Ef; [injection Ef as <-; auto|].
    destruct (first_page_row rnd S Q0 x) as [Q|] eqn:EQ; [|discriminate]. cbn [bind] in Ef.
    pose proof (Hl x (or_introl eq_refl)) as Hx.
    destruct (first_row_gens _ _ _ _ _ _ _ _ _ HI S PO HN x Hx (Hr x Hx) _ _ HL EQ) as [_ F].
    destruct (F n d) as (F1 & F2 & F3 & F4); [destruct Hnd as [X|X]; [left; intros ->; apply X; left; reflexivity|right; exact X]|].
    destruct (IH Q Q1 (fun d' X => Hl d' (or_intror X)) Ef n d) as (K1 & K2 & K3 & K4); [destruct Hnd as [X|X]; [left; intros Y; apply X; right; exact Y|auto]|].
    rewrite K1, K2, K3, K4. auto. }
  assert (First : forall n d, (n < length nerve)%nat -> (d < m)%nat -> exists H I reps, tget (h_hom P1) 1 n d = Ok H /\ tget (h_im P1) 1 n d = Ok (Some I) /\
     tget (h_dim P1) 2 n d = Ok (b_dim H) /\ tget (h_reps P1) 1 n d = Ok reps /\ gens Dist max_r p IN n0 nerve S d n H I reps).
  { intros n d Hn Hd. assert (Hin : In d (seq 0 m)) by (apply in_seq; lia). destruct (foldM_split _ _ _ _ d Hin E1) as (l1 & l2 & s1 & s2 & El & F1 & F2 & F3).
    pose proof (seq_NoDup m 0) as ND. rewrite El in ND. apply NoDup_remove_2 in ND.
    assert (H12 : forall x, In x (l1 ++ d :: l2) -> (x < m)%nat) by (intros x Hx; rewrite <- El in Hx; apply in_seq in Hx; lia).
    destruct (G l1 _ _ (fun x Hx => H12 x (in_or_app _ _ _ (or_introl Hx))) F1 n d) as (_ & _ & _ & A4); [left; intros X; apply ND; apply in_or_app; auto|].
    destruct (G l2 _ _ (fun x Hx => H12 x (in_or_app _ _ _ (or_intror (in_cons d x l2 Hx)))) F3 n d) as (C1 & C2 & C3 & C4); [left; intros X; apply ND; apply in_or_app; auto|].
    rewrite C1, C2, C3, C4. destruct (first_row_gens _ _ _ _ _ _ _ _ _ HI S PO HN d Hd (Hr d Hd) _ _ HL F2) as [F _].
    apply (F n Hn).
    + destruct d as [|d]; [right; exists 0; split; intros x Hx; apply (zero_births S _ x PO Hd Hx)|]. left. right. apply acyclic_rows; auto. lia.
    + rewrite A4. unfold I0, init_pages. cbn [h_reps]. apply tget_init; lia. }
  assert (Off : forall k n d, k <> 1%nat -> tget (h_hom P1) k n d = tget (h_hom I0) k n d /\ tget (h_dim P1) (Datatypes.S k) n d = tget (h_dim I0) (Datatypes.S k) n d).
  { intros k n d Hk. refine (foldM_inv _ (fun Q => tget (h_hom Q) k n d = tget (h_hom I0) k n d /\ tget (h_dim Q) (Datatypes.S k) n d = tget (h_dim I0) (Datatypes.S k) n d) _ _ I0 P1 (conj eq_refl eq_refl) E1).
    intros s x s' _ [A B] Es. destruct (first_row_off _ _ _ _ _ Es k n d Hk) as [-> ->]. auto. }
  assert (T0 : forall n d k, (forall H, tget (h_hom I0) k n d = Ok H -> H = empty_basis) /\ (forall x, tget (h_dim I0) (Datatypes.S k) n d = Ok x -> x = 0%nat)).
  { intros n d k. unfold I0, init_pages. cbn [h_hom h_dim]. split; intros y Ey; [apply tget_init_eq in Ey; exact Ey|apply tget_init_all in Ey; exact Ey]. }
  assert (Y : forall n d, (n < length nerve)%nat /\ (d < m)%nat \/ (~ In d (seq 0 m) \/ (length nerve <= n)%nat)).
  { intros n d. destruct (Nat.lt_ge_cases n (length nerve)) as [L1|L1]; [|auto]. destruct (Nat.lt_ge_cases d m) as [L2|L2]; [auto|]. right. left. intros X. apply in_seq in X. lia. }
  assert (Out : forall n d, ~ In d (seq 0 m) \/ (length nerve <= n)%nat -> tget (h_hom P1) 1 n d = tget (h_hom I0) 1 n d /\ tget (h_dim P1) 2 n d = tget (h_dim I0) 2 n d).
  { intros n d Hnd. destruct (G (seq 0 m) _ _ ltac:(intros x Hx; apply in_seq in Hx; lia) E1 n d Hnd) as (C1 & _ & C3 & _). auto. }
  split; [exact First|]. split; [|split].
  - intros k Hk n d Hd. destruct (Nat.eq_dec k 1) as [->|Hne].
    + destruct (Y n d) as [[L1 L2]|Z].
      * destruct (First n d L1 L2) as (H & I & reps & X1 & _ & X3 & _ & X5). rewrite X1, X3. pose proof (gens_empty S d n H I reps L2 (acyclic_rows S d n PO HA ltac:(lia)) X5) as Z0.
        pose proof (ge_dim _ _ _ _ _ _ _ _ _ _ _ _ X5) as Ld. rewrite Z0 in Ld. split; intros y Ey; injection Ey as <-; [|exact Z0]. split; [exact Z0|]. destruct (b_bars H); [reflexivity|discriminate].
      * destruct (Out n d Z) as [-> ->]. split; [intros H EH; apply T0 in EH; subst H; split; reflexivity|apply T0].
    + destruct (Off k n d Hne) as [-> ->]. split; [intros H EH; apply T0 in EH; subst H; split; reflexivity|apply T0].
  - intros k Hk n H EH. assert (PE : proper empty_basis) by (split; [reflexivity|intros x []]). destruct (Nat.eq_dec k 1) as [->|Hne].
    + destruct (Y n 0%nat) as [[L1 L2]|Z].
      * destruct (First n 0%nat L1 L2) as (H' & I & reps & X1 & _ & _ & _ & X5). rewrite X1 in EH. injection EH as ->.
        split; [apply (ge_dim _ _ _ _ _ _ _ _ _ _ _ _ X5)|]. intros x Hx. pose proof (proj1 (ge_wb _ _ _ _ _ _ _ _ _ _ _ _ X5) x Hx). lia.
      * destruct (Out n 0%nat Z) as [X _]. rewrite X in EH. apply T0 in EH. subst H. exact PE.
    + destruct (Off k n 0%nat Hne) as [X _]. rewrite X in EH. apply T0 in EH. subst H. exact PE.
  - intros k n d x Hk Hn Ex. destruct (Nat.eq_dec k 1) as [->|Hne].
    + destruct (Out n d (or_intror Hn)) as [_ X]. rewrite X in Ex. apply T0 in Ex. exact Ex.
    + destruct (Off k n d Hne) as [_ X]. rewrite X in Ex. apply T0 in Ex. exact Ex.
Qed.
End First.

Theorem nerve_tables_ok S P Hs : acyclic_cover p Dist max_r max_dim IN n0 nerve -> mv_ss argsort rnd Dist max_r max_dim p IN n0 nerve = Ok (S, P, Hs) ->
  page_ok argsort rnd Dist max_r max_dim p IN n0 nerve S /\ nerve_tables S P /\
  exists H0 O, mapM (diagonal rnd S P np) (seq 1 (m - 1)) = Ok O /\ Hs = H0 :: flat_map (fun o => match o with Some b => [b] | None => [] end) O.
Proof.
  intros HA. unfold mv_ss. intros E. destruct (zero_page argsort rnd Dist max_r max_dim p IN n0 nerve) as [S'|] eqn:EZ; [|discriminate]. cbn [bind] in E.
  pose proof (zero_page_ok _ _ _ _ _ _ _ _ _ HI S' EZ) as PO. rewrite (po_rows _ _ _ _ _ _ _ _ _ _ PO) in E. fold m in E.
  set (N := np) in *.
  match type of E with bind ?x _ = _ => destruct x as [P1|] eqn:E1; [|discriminate] end. cbn [bind] in E.
  match type of E with bind ?x _ = _ => destruct x as [P2|] eqn:E2; [|discriminate] end. cbn [bind] in E.
  destruct (tget (h_hom P2) _ 0 0) as [H0|]; [|discriminate]. cbn [bind] in E.
  match type of E with bind ?x _ = _ => destruct x as [O|] eqn:EO; [|discriminate] end. cbn [bind] in E. injection E as <- <- <-.
  split; [exact PO|]. split; [|exists H0, O; auto].
  destruct (nerve_first S' PO HA P1 E1) as (First & Calm & Pr & Out).
  destruct (row_pages rnd S' m (N - 2) 2 P1 P2 (le_n 2) E2 Calm Pr) as (A1 & A2 & A3 & A4). rewrite (po_nerve _ _ _ _ _ _ _ _ _ _ PO) in A3, A4.
  constructor.
  - intros n d Hn Hd. destruct (First n d Hn Hd) as (H & I & reps & X1 & X2 & X3 & X4 & X5). destruct (A1 1%nat n d ltac:(lia)) as (-> & -> & -> & ->). exists H, I, reps. auto.
  - intros k n Hk Hn Hm. apply A3; auto. unfold N in *. lia.
  - exact A2.
  - intros k n d x Hk Hn Ex. destruct (A4 k n d Hn) as (_ & _ & _ & X). rewrite X in Ex. apply (Out k n d x Hk Hn Ex).
Qed.
End Tables.
