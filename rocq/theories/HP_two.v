(** * The tables of a spectral sequence with two columns *)
From Coq Require Import QArith.
From Verif Require Import Base ListX SortX Lin Gauss_model Gauss_arith Gauss_solve Basis_model Basis_props PH_model PH_loop PH_lin PH_step PH_props Simp_model Spec_Simp Simp_lists Simp_diff Simp_props
  Spec_PH Spec_Rips Rips_bd Rips_chain Rips_props LC_model Spec_LC LC_props SS_model Spec_SS SS_inv SS_page SS_cech SS_lift SS_zig SS_first SS_double SS_fplift
  IK_model IK_lin IK_abs IK_quot IK_mph MPH_props Spec_IK Spec_Bars Bars MPH_bars Bars_weak Bars_complex Spec_E2 Blocks SS_rows Cover_model HP_model HP_table HP_row HP_gens HP_second HP_zero HP_pages Two_col.
From Coq Require Import Sorted Permutation Znumtheory.
Local Open Scope Z_scope.

Lemma nth_err_repeat {A} (x : A) n i : (i < n)%nat -> nth_err (repeat x n) i = Ok x.
Proof. intros H. rewrite (nth_err_nth _ _ x) by (rewrite repeat_length; exact H). f_equal. apply nth_repeat. Qed.

Lemma tget_init {A} (x : A) np c r k n d : (0 < k < np)%nat -> (n < c)%nat -> (d < r)%nat -> tget ([] :: repeat (repeat (repeat x r) c) (np - 1)) k n d = Ok x.
Proof.
  intros Hk Hn Hd. unfold tget. destruct k as [|k]; [lia|]. change (nth_err ([] :: repeat (repeat (repeat x r) c) (np - 1)) (Datatypes.S k)) with (nth_err (repeat (repeat (repeat x r) c) (np - 1)) k).
  rewrite nth_err_repeat by lia. cbn [bind]. rewrite nth_err_repeat by lia. cbn [bind]. apply nth_err_repeat. lia.
Qed.

Lemma tget_init_eq {A} (x : A) np c r k n d y : tget ([] :: repeat (repeat (repeat x r) c) (np - 1)) k n d = Ok y -> y = x.
Proof.
  unfold tget. destruct k as [|k]; [cbn; destruct n; discriminate|]. change (nth_err ([] :: repeat (repeat (repeat x r) c) (np - 1)) (Datatypes.S k)) with (nth_err (repeat (repeat (repeat x r) c) (np - 1)) k).
  destruct (nth_err _ k) as [pg|] eqn:E1; [|discriminate]. cbn [bind]. pose proof (nth_err_lt _ _ _ E1) as L1. rewrite repeat_length in L1. rewrite nth_err_repeat in E1 by auto. injection E1 as <-.
  destruct (nth_err _ n) as [co|] eqn:E2; [|discriminate]. cbn [bind]. pose proof (nth_err_lt _ _ _ E2) as L2. rewrite repeat_length in L2. rewrite nth_err_repeat in E2 by auto. injection E2 as <-.
  intros E3. pose proof (nth_err_lt _ _ _ E3) as L3. rewrite repeat_length in L3. rewrite nth_err_repeat in E3 by auto. injection E3 as <-. reflexivity.
Qed.

Lemma tget_init_all {A} (x : A) N c r k n d y : tget (repeat (repeat (repeat x r) c) N) k n d = Ok y -> y = x.
Proof.
  unfold tget. destruct (nth_err _ k) as [pg|] eqn:E1; [|discriminate]. cbn [bind]. pose proof (nth_err_lt _ _ _ E1) as L1. rewrite repeat_length in L1. rewrite nth_err_repeat in E1 by auto. injection E1 as <-.
  destruct (nth_err _ n) as [co|] eqn:E2; [|discriminate]. cbn [bind]. pose proof (nth_err_lt _ _ _ E2) as L2. rewrite repeat_length in L2. rewrite nth_err_repeat in E2 by auto. injection E2 as <-.
  intros E3. pose proof (nth_err_lt _ _ _ E3) as L3. rewrite repeat_length in L3. rewrite nth_err_repeat in E3 by auto. injection E3 as <-. reflexivity.
Qed.

(** The first page only changes its own entries. *)
Lemma first_row_off rnd S P d P' : first_page_row rnd S P d = Ok P' -> forall k n' d', k <> 1%nat ->
  tget (h_hom P') k n' d' = tget (h_hom P) k n' d' /\ tget (h_dim P') (Datatypes.S k) n' d' = tget (h_dim P) (Datatypes.S k) n' d'.
Proof.
  unfold first_page_row. intros E k n' d' Hk. destruct (mapM _ _) as [base|]; [|discriminate]. cbn [bind] in E. destruct (mapM _ _) as [diffs|]; [|discriminate]. cbn [bind] in E.
  destruct (module_persistence_homology _ _ _ _) as [[[Hom Im] Pre]|]; [|discriminate]. cbn [bind] in E.
  destruct (add_output_higher _ _ _ _ _) as [P1|] eqn:EA; [|discriminate]. cbn [bind] in E.
  assert (X : h_hom P' = h_hom P1 /\ h_dim P' = h_dim P1).
  { refine (foldM_inv _ (fun Q => h_hom Q = h_hom P1 /\ h_dim Q = h_dim P1) _ _ P1 P' (conj eq_refl eq_refl) E). intros s x s' _ Hs Es. destruct (tget (h_hom s) 1 x d) as [h|]; [|discriminate]. cbn [bind] in Es.
    destruct (Nat.ltb _ _); [|injection Es as <-; exact Hs]. apply two_page_hom in Es. destruct Es as (-> & _ & _ & ->). exact Hs. }
  destruct X as [-> ->]. pose proof (add_output_rest _ _ _ _ _ _ ltac:(auto) EA) as R. destruct (R k n' d') as [R1 _]. destruct (R (Datatypes.S k) n' d') as [_ R2]. split; [apply R1; auto|apply R2; left; lia].
Qed.

Lemma wb_bar {X} p M (Zs Bs : Z -> (X -> Z) -> Prop) bars g : weak_basis p Zs Bs M bars g -> forall k, (k < length bars)%nat -> bbirth bars k < bdeath bars k <= M.
Proof. intros (H & _) k Hk. apply H. apply nth_In. exact Hk. Qed.

Section Two.
Variables (argsort : list Z -> list nat) (rnd : Z -> Z) (Dist : list (list Z)) (max_r max_dim p : Z)
  (IN : list (list (list nat))) (n0 : nat) (nerve : list (list simplex)).
Hypothesis HI : mv_input argsort Dist max_r max_dim p IN n0 nerve.
Hypothesis HN : pure_nerve n0 nerve.
Hypothesis Hrnd : forall x y, filtration_value Dist max_r x -> filtration_value Dist max_r y -> rnd x <= rnd y -> x <= y.
Hypothesis Hlen : (1 < length nerve)%nat.
Hypothesis Htop : forall n, (2 <= n)%nat -> level n0 nerve n = [].
Let m := Z.to_nat max_dim.
Let Hp := mv_prime _ _ _ _ _ _ _ _ HI.
Local Notation np := (Z.to_nat (Z.min (max_dim + 2) (Z.of_nat (length nerve)))).

Record tables (S : ss) (P : pages) : Prop := {
  ta_first : forall n d, (n < 2)%nat -> (d < m)%nat -> exists H I reps, tget (h_hom P) 1 n d = Ok H /\ tget (h_im P) 1 n d = Ok (Some I) /\
     tget (h_dim P) 2 n d = Ok (b_dim H) /\ tget (h_reps P) 1 n d = Ok reps /\ gens Dist max_r p IN n0 nerve S d n H I reps;
  ta_step : forall k n d, (2 <= k < np)%nat -> (n < 2)%nat -> (d < m)%nat -> stp rnd P k n d;
  ta_thin : forall k, (1 <= k)%nat -> thin P k
}.

(** A position without classes on the first page. *)
Lemma gens_nil S d n H I reps : (d < m)%nat -> row_bars n0 nerve S d n = [] -> gens Dist max_r p IN n0 nerve S d n H I reps -> b_dim H = 0%nat.
Proof.
  intros Hd Z0 GE. destruct (Nat.eq_dec (b_dim H) 0) as [|Hpos]; [auto|]. exfalso. pose proof (ge_wb _ _ _ _ _ _ _ _ _ _ _ _ GE) as PB1. pose proof (ge_dim _ _ _ _ _ _ _ _ _ _ _ _ GE) as Ld.
  pose proof (wb_bar p max_r _ _ _ _ PB1 0%nat ltac:(lia)) as Bar. destruct PB1 as (_ & HQ & _). destruct (HQ (bbirth (b_bars H) 0) ltac:(lia)) as (_ & _ & HQ3).
  specialize (HQ3 (fun k => if Nat.eqb k 0 then 1 else 0)).
  assert (X : 1 mod p = 0); [|rewrite Z.mod_1_l in X by (apply prime_ge_2 in Hp; lia); discriminate].
  apply (HQ3) with (k := 0%nat); [| |lia].
  - intros [|k] Hk; [exfalso; apply Hk; lia|reflexivity].
  - apply (subs_zero p Hp); [apply (page2_bounds_sub _ _ _ _ _ _ _ _ HI S d n _ Hd)|]. intros x. apply cong_eq. apply Zsum_0. intros k Hk.
    replace (fam_comb n0 nerve S d n _ x) with 0; [ring|]. unfold fam_comb. rewrite Z0. reflexivity.
Qed.

Lemma np_ge : (2 <= np)%nat.
Proof. pose proof (mv_max_dim _ _ _ _ _ _ _ _ HI). lia. Qed.

(** The first page. *)
Lemma first_facts S P1 : page_ok argsort rnd Dist max_r max_dim p IN n0 nerve S ->
  foldM (first_page_row rnd S) (seq 0 m) (init_pages np (1 + length nerve) m) = Ok P1 ->
  (forall n d, (n < length nerve)%nat -> (d < m)%nat -> exists H I reps, tget (h_hom P1) 1 n d = Ok H /\ tget (h_im P1) 1 n d = Ok (Some I) /\
     tget (h_dim P1) 2 n d = Ok (b_dim H) /\ tget (h_reps P1) 1 n d = Ok reps /\ gens Dist max_r p IN n0 nerve S d n H I reps) /\
  first_proper m P1 1 /\ forall k, (1 <= k)%nat -> thin P1 k.
Proof.
  intros PO E1. pose proof np_ge as Hnp. set (N := np) in *. set (I0 := init_pages N (1 + length nerve) m) in *.
  assert (Hr : forall d, (d < m)%nat -> forall x y, local_end n0 nerve S d x -> local_end n0 nerve S d y -> rnd x <= rnd y -> x <= y).
  { intros d Hd x y Hx Hy. apply Hrnd; apply (end_value _ _ _ _ _ _ _ _ _ HI S PO d); auto. }
  assert (HL : (0 < length nerve)%nat) by lia.
  assert (Hrb : forall d n, (2 <= n)%nat -> row_bars n0 nerve S d n = []) by (intros d n Hn; unfold row_bars; rewrite Htop by exact Hn; reflexivity).
  assert (G : forall l P0 P1, (forall d, In d l -> (d < m)%nat) -> foldM (first_page_row rnd S) l P0 = Ok P1 ->
    (forall n d, ~ In d l \/ (length nerve <= n)%nat -> tget (h_hom P1) 1 n d = tget (h_hom P0) 1 n d /\ tget (h_im P1) 1 n d = tget (h_im P0) 1 n d /\
      tget (h_dim P1) 2 n d = tget (h_dim P0) 2 n d /\ tget (h_reps P1) 1 n d = tget (h_reps P0) 1 n d)).
  { induction l as [|x l IH]; intros Q0 Q1 Hl Ef n d Hnd; cbn [foldM] in Ef; [injection Ef as <-; auto|].
    destruct (first_page_row rnd S Q0 x) as [Q|] eqn:EQ; [|discriminate]. cbn [bind] in Ef.
    pose proof (Hl x (or_introl eq_refl)) as Hx.
    destruct (first_row_gens _ _ _ _ _ _ _ _ _ HI S PO HN x Hx (Hr x Hx) _ _ HL EQ) as [_ F].
    destruct (F n d) as (F1 & F2 & F3 & F4); [destruct Hnd as [X|X]; [left; intros ->; apply X; left; reflexivity|right; exact X]|].
    destruct (IH Q Q1 (fun d' X => Hl d' (or_intror X)) Ef n d) as (K1 & K2 & K3 & K4); [destruct Hnd as [X|X]; [left; intros Y; apply X; right; exact Y|auto]|].
    rewrite K1, K2, K3, K4. auto. }
  assert (First : forall n d, (n < length nerve)%nat -> (d < m)%nat -> exists H I reps, tget (h_hom P1) 1 n d = Ok H /\ tget (h_im P1) 1 n d = Ok (Some I) /\
     tget (h_dim P1) 2 n d = Ok (b_dim H) /\ tget (h_reps P1) 1 n d = Ok reps /\ gens Dist max_r p IN n0 nerve S d n H I reps).
  { intros n d Hn Hd. assert (Hin : In d (seq 0 m)) by (apply in_seq; lia). destruct (foldM_split _ _ _ _ d Hin E1) as (l1 & l2 & s1 & s2 & El & F1 & F2 & F3).
    pose proof (seq_NoDup m 0) as ND. rewrite El in ND. apply NoDup_remove_2 in ND.
    assert (H12 : forall x, In x (l1 ++ d :: l2) -> (x < m)%nat) by (intros x Hx; rewrite <- El in Hx; apply in_seq in Hx; lia).
    destruct (G l1 _ _ (fun x Hx => H12 x (in_or_app _ _ _ (or_introl Hx))) F1 n d) as (_ & _ & _ & A4); [left; intros X; apply ND; apply in_or_app; auto|].
    destruct (G l2 _ _ (fun x Hx => H12 x (in_or_app _ _ _ (or_intror (in_cons d x l2 Hx)))) F3 n d) as (C1 & C2 & C3 & C4); [left; intros X; apply ND; apply in_or_app; auto|].
    rewrite C1, C2, C3, C4. destruct (first_row_gens _ _ _ _ _ _ _ _ _ HI S PO HN d Hd (Hr d Hd) _ _ HL F2) as [F _].
    apply (F n Hn).
    + left. destruct n as [|n]; [auto|]. right. apply Hrb. lia.
    + rewrite A4. unfold I0, init_pages. cbn [h_reps]. apply tget_init; lia. }
  assert (Off : forall k n d, k <> 1%nat -> tget (h_hom P1) k n d = tget (h_hom I0) k n d /\ tget (h_dim P1) (Datatypes.S k) n d = tget (h_dim I0) (Datatypes.S k) n d).
  { intros k n d Hk. refine (foldM_inv _ (fun Q => tget (h_hom Q) k n d = tget (h_hom I0) k n d /\ tget (h_dim Q) (Datatypes.S k) n d = tget (h_dim I0) (Datatypes.S k) n d) _ _ I0 P1 (conj eq_refl eq_refl) E1).
    intros s x s' _ [A B] Es. destruct (first_row_off _ _ _ _ _ Es k n d Hk) as [-> ->]. auto. }
  assert (T0 : forall n d k, (forall H, tget (h_hom I0) k n d = Ok H -> b_dim H = 0%nat) /\ (forall x, tget (h_dim I0) (Datatypes.S k) n d = Ok x -> x = 0%nat)).
  { intros n d k. unfold I0, init_pages. cbn [h_hom h_dim]. split; intros y Ey; [apply tget_init_eq in Ey; subst y; reflexivity|apply tget_init_all in Ey; exact Ey]. }
  assert (Thin : forall k, (1 <= k)%nat -> thin P1 k).
  { intros k Hk n d Hn. destruct (Nat.eq_dec k 1) as [->|Hne]; [|destruct (Off k n d Hne) as [-> ->]; apply T0].
    assert (Y : (n < length nerve)%nat /\ (d < m)%nat \/ (~ In d (seq 0 m) \/ (length nerve <= n)%nat)).
    { destruct (Nat.lt_ge_cases n (length nerve)) as [L1|L1]; [|auto]. destruct (Nat.lt_ge_cases d m) as [L2|L2]; [auto|]. right. left. intros X. apply in_seq in X. lia. }
    destruct Y as [[L1 L2]|Y].
    - destruct (First n d L1 L2) as (H & I & reps & X1 & _ & X3 & _ & X5). rewrite X1, X3. pose proof (gens_nil S d n H I reps L2 (Hrb d n Hn) X5) as Z0. split; intros y Ey; injection Ey as <-; exact Z0.
    - destruct (G (seq 0 m) _ _ ltac:(intros x Hx; apply in_seq in Hx; lia) E1 n d Y) as (C1 & _ & C3 & _). rewrite C1, C3. apply T0. }
  split; [exact First|]. split; [|exact Thin].
  intros n d H Hn Hd EH. destruct (First n d ltac:(lia) Hd) as (H' & I & reps & X1 & _ & _ & _ & X5). rewrite X1 in EH. injection EH as ->.
  split; [apply (ge_dim _ _ _ _ _ _ _ _ _ _ _ _ X5)|]. intros x Hx. apply (In_nth _ _ (0, 0)) in Hx. destruct Hx as (i & Hi & <-). pose proof (wb_bar p max_r _ _ _ _ (ge_wb _ _ _ _ _ _ _ _ _ _ _ _ X5) i Hi) as Y. unfold bbirth, bdeath in Y. lia.
Qed.

Theorem two_tables S P Hs : mv_ss argsort rnd Dist max_r max_dim p IN n0 nerve = Ok (S, P, Hs) ->
  page_ok argsort rnd Dist max_r max_dim p IN n0 nerve S /\ tables S P /\
  exists H0 O, mapM (diagonal rnd S P np) (seq 1 (m - 1)) = Ok O /\ Hs = H0 :: flat_map (fun o => match o with Some b => [b] | None => [] end) O.
Proof.
  unfold mv_ss. intros E. destruct (zero_page argsort rnd Dist max_r max_dim p IN n0 nerve) as [S'|] eqn:EZ; [|discriminate]. cbn [bind] in E.
  pose proof (zero_page_ok _ _ _ _ _ _ _ _ _ HI S' EZ) as PO. rewrite (po_rows _ _ _ _ _ _ _ _ _ _ PO) in E. fold m in E.
  pose proof np_ge as Hnp. set (N := np) in *.
  match type of E with bind ?x _ = _ => destruct x as [P1|] eqn:E1; [|discriminate] end. cbn [bind] in E.
  match type of E with bind ?x _ = _ => destruct x as [P2|] eqn:E2; [|discriminate] end. cbn [bind] in E.
  destruct (tget (h_hom P2) _ 0 0) as [H0|]; [|discriminate]. cbn [bind] in E.
  match type of E with bind ?x _ = _ => destruct x as [O|] eqn:EO; [|discriminate] end. cbn [bind] in E. injection E as <- <- <-.
  split; [exact PO|]. split; [|exists H0, O; auto].
  destruct (first_facts S' P1 PO E1) as (First & FP & Thin).
  destruct (pages_steps rnd S' m ltac:(rewrite (po_nerve _ _ _ _ _ _ _ _ _ _ PO); exact Hlen) (N - 2) 2 P1 P2 (le_n 2) E2 FP Thin) as (A1 & A2 & A3).
  constructor.
  - intros n d Hn Hd. destruct (First n d ltac:(lia) Hd) as (H & I & reps & X1 & X2 & X3 & X4 & X5). destruct (A1 1%nat n d ltac:(lia)) as (-> & -> & -> & ->). exists H, I, reps. auto.
  - intros k n d Hk Hn Hd. apply A3; auto. unfold N in *. lia.
  - exact A2.
Qed.
End Two.
