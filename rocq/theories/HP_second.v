(** * The second page of [mv_ss] *)
From Coq Require Import QArith.
From Verif Require Import Base ListX SortX Lin Gauss_model Gauss_arith Gauss_solve Basis_model Basis_props PH_model PH_loop PH_lin PH_props Simp_model Spec_Simp Simp_lists Simp_diff Simp_props
  Spec_PH Spec_Rips Rips_bd Rips_chain Rips_props LC_model Spec_LC LC_props SS_model Spec_SS SS_inv SS_page SS_cech SS_lift SS_zig SS_first SS_double
  IK_model IK_lin IK_abs IK_quot IK_mph MPH_props Spec_IK Spec_Bars Bars MPH_bars Bars_complex Spec_E2 Blocks SS_rows Cover_model HP_model HP_table HP_row.
From Coq Require Import Sorted Permutation Znumtheory.
Local Open Scope Z_scope.

Section Second.
Variables (argsort : list Z -> list nat) (rnd : Z -> Z) (Dist : list (list Z)) (max_r max_dim p : Z)
  (IN : list (list (list nat))) (n0 : nat) (nerve : list (list simplex)).
Hypothesis HI : mv_input argsort Dist max_r max_dim p IN n0 nerve.
Let m := Z.to_nat max_dim.
Let Hp := mv_prime _ _ _ _ _ _ _ _ HI.

(** ** The ends of the local bars *)
Section Ends.
Variable S : ss.
Hypothesis PO : page_ok argsort rnd Dist max_r max_dim p IN n0 nerve S.

Lemma cell_value n k R d i : (n < length nerve)%nat -> (k < length (level n0 nerve n))%nat -> local_ok rnd Dist max_r max_dim p (ins_of IN n k) (loc_of S n k) R -> (d <= m)%nat ->
  (i < csize R d)%nat -> filtration_value Dist max_r (crad R d i).
Proof.
  intros Hn Hk OK Hd Hi. destruct d as [|d].
  - left. apply (vc_zero _ _ _ _ _ (lo_valid _ _ _ _ _ _ _ _ OK)). auto.
  - right. right. rewrite (lo_size _ _ _ _ _ _ _ _ OK) in Hi. pose proof (lo_crad _ _ _ _ _ _ _ _ OK (Datatypes.S d) i ltac:(fold m; lia) Hi) as HD.
    set (T := glob (ins_of IN n k) (nth i (level (length (ins_of IN n k)) (l_Cs (loc_of S n k)) (Datatypes.S d)) [])) in *.
    assert (HT : clique (length Dist) (near Dist max_r) (Datatypes.S d) T /\ incl T (ins_of IN n k)).
    { apply (G_In argsort rnd Dist max_r max_dim p IN n0 nerve HI S PO n k Hn Hk (Datatypes.S d) T ltac:(fold m; lia)). unfold SS_cech.G. apply in_map_iff. eexists. split; [reflexivity|]. apply nth_In. exact Hi. }
    destruct HT as ((_ & Inc & Lt & _) & _).
    destruct HD as [(u & v & Hu & Hv & Huv & E) _]. exists u, v. split; [|auto]. specialize (Lt v Hv). lia.
Qed.

Lemma end_value d x : (d < m)%nat -> local_end n0 nerve S d x -> filtration_value Dist max_r x.
Proof.
  intros Hd (n & k & b & Hn & Hk & Hb & He). destruct (loc_ok _ _ _ _ _ _ _ _ _ S PO n k Hn Hk) as [R OK].
  pose proof (lo_valid _ _ _ _ _ _ _ _ OK) as VC. pose proof (lo_ph _ _ _ _ _ _ _ _ OK) as PH. pose proof (lo_Ds _ _ _ _ _ _ _ _ OK) as LD.
  assert (Hdd : (d <= length (l_Ds (loc_of S n k)))%nat) by (rewrite LD; fold m; lia).
  unfold hom_of in Hb. apply (In_nth _ _ (0, 0)) in Hb. destruct Hb as (h & Hh & <-).
  destruct He as [->| ->].
  - destruct (C19_aux rnd p max_r _ _ R _ Hp VC PH d h Hdd Hh) as (_ & i & Hi & E & _). unfold bbirth in E. rewrite <- E. apply (cell_value n k R d i); auto. lia.
  - destruct (C23_aux rnd p max_r _ _ R _ Hp VC PH) as (_ & _ & _ & Hsh). destruct (Hsh d Hdd) as (Hbar & _). specialize (Hbar h Hh).
    destruct (C21_aux rnd p max_r _ _ R _ Hp VC PH d h Hdd Hh) as [He Hne]. unfold bbirth, bdeath in *.
    set (bb := nth h (b_bars (nth d (ph_hom (l_out (loc_of S n k))) empty_basis)) (0, 0)) in *.
    destruct (Z.eq_dec (snd bb) max_r) as [E|E]; [right; left; exact E|]. destruct (He ltac:(lia)) as (w & Hw & Ew).
    destruct (existsb (fun i => crad R (Datatypes.S d) i =? snd bb) (seq 0 (csize R (Datatypes.S d)))) eqn:EX.
    + apply existsb_exists in EX. destruct EX as (i & Hi & Ei). apply in_seq in Hi. apply Z.eqb_eq in Ei. rewrite <- Ei. apply (cell_value n k R (Datatypes.S d) i); auto; lia.
    + exfalso. apply (Hne (snd bb - 1)); [lia|]. exists w. split; [|exact Ew]. intros i Hi. destruct (Hw i Hi) as [W1 W2]. split; [exact W1|].
      destruct (Z.eq_dec (crad R (Datatypes.S d) i) (snd bb)) as [X|X]; [|lia]. exfalso.
      assert (Y : existsb (fun i => crad R (Datatypes.S d) i =? snd bb) (seq 0 (csize R (Datatypes.S d))) = true) by (apply existsb_exists; exists i; split; [apply in_seq; lia|apply Z.eqb_eq; exact X]).
      congruence.
Qed.
End Ends.

(** ** From the first page to the end *)
Hypothesis HN : pure_nerve n0 nerve.
Hypothesis Hrnd : forall x y, filtration_value Dist max_r x -> filtration_value Dist max_r y -> rnd x <= rnd y -> x <= y.

Lemma first_page_row_other S P d P' : first_page_row rnd S P d = Ok P' -> forall n' d', d' <> d -> tget (h_hom P') 1 n' d' = tget (h_hom P) 1 n' d'.
Proof.
  unfold first_page_row. intros E n' d' Hne. destruct (mapM _ _) as [base|]; [|discriminate]. cbn [bind] in E. destruct (mapM _ _) as [diffs|]; [|discriminate]. cbn [bind] in E.
  destruct (module_persistence_homology _ _ _ _) as [[[Hom Im] Pre]|]; [|discriminate]. cbn [bind] in E.
  destruct (add_output_higher _ _ _ _ _) as [P1|] eqn:EA; [|discriminate]. cbn [bind] in E.
  transitivity (tget (h_hom P1) 1 n' d').
  - f_equal. refine (foldM_inv _ (fun Q => h_hom Q = h_hom P1) _ _ P1 P' eq_refl E). intros s x s' _ Hs Es. destruct (tget (h_hom s) 1 x d) as [h|]; [|discriminate]. cbn [bind] in Es.
    destruct (Nat.ltb _ _); [|injection Es as <-; exact Hs]. apply two_page_hom in Es. destruct Es as [-> _]. exact Hs.
  - apply (add_output_row _ _ _ _ _ _ ltac:(auto) EA). intros i _. right. rewrite Nat.sub_diag, Nat.mul_0_r. lia.
Qed.

Lemma higher_page_row_other S cp P st P' : (0 < cp)%nat -> higher_page_row rnd S cp P st = Ok P' -> forall k' n' d', k' <> cp -> tget (h_hom P') k' n' d' = tget (h_hom P) k' n' d'.
Proof.
  intros Hcp. unfold higher_page_row. intros E k' n' d' Hne. destruct (mapM _ _) as [base|]; [|discriminate]. cbn [bind] in E. destruct (mapM _ _) as [diffs|]; [|discriminate]. cbn [bind] in E.
  destruct (module_persistence_homology _ _ _ _) as [[[Hom Im] Pre]|]; [|discriminate]. cbn [bind] in E.
  destruct (add_output_higher _ _ _ _ _) as [P1|] eqn:EA; [|discriminate]. cbn [bind] in E.
  transitivity (tget (h_hom P1) k' n' d').
  - f_equal. refine (foldM_inv _ (fun Q => h_hom Q = h_hom P1) _ _ P1 P' eq_refl E). intros s x s' _ Hs Es. apply higher_hom in Es. destruct Es as [-> _]. exact Hs.
  - apply (add_output_other _ _ _ _ _ _ Hcp EA). auto.
Qed.

Theorem second_page S P Hs : mv_ss argsort rnd Dist max_r max_dim p IN n0 nerve = Ok (S, P, Hs) ->
  forall n d, (n < length nerve)%nat -> (d < m)%nat ->
    ~ (classes n0 nerve S (Datatypes.S n) d <> 0%nat /\ classes n0 nerve S n d = 0%nat) /\
    exists H, tget (h_hom P) 1 n d = Ok H /\
      barcode p (page2_cycle p Dist IN n0 nerve S d n) (page2_bounds p Dist IN n0 nerve S d n) max_r (b_bars H).
Proof.
  unfold mv_ss. intros E. destruct (zero_page argsort rnd Dist max_r max_dim p IN n0 nerve) as [S'|] eqn:EZ; [|discriminate]. cbn [bind] in E.
  pose proof (zero_page_ok _ _ _ _ _ _ _ _ _ HI S' EZ) as PO. rewrite (po_rows _ _ _ _ _ _ _ _ _ _ PO) in E. fold m in E.
  match type of E with bind ?x _ = _ => destruct x as [P1|] eqn:E1; [|discriminate] end. cbn [bind] in E.
  match type of E with bind ?x _ = _ => destruct x as [P2|] eqn:E2; [|discriminate] end. cbn [bind] in E.
  destruct (tget (h_hom P2) _ 0 0) as [H0|]; [|discriminate]. cbn [bind] in E. destruct (mapM _ _) as [Hs'|]; [|discriminate]. cbn [bind] in E. injection E as <- <- _.
  assert (H12 : forall n d, tget (h_hom P2) 1 n d = tget (h_hom P1) 1 n d).
  { refine (foldM_inv _ (fun Q => forall n d, tget (h_hom Q) 1 n d = tget (h_hom P1) 1 n d) _ _ P1 P2 (fun _ _ => eq_refl) E2).
    intros s cp s' Hcp Hs0 Es. apply in_seq in Hcp.
    refine (foldM_inv _ (fun Q => forall n d, tget (h_hom Q) 1 n d = tget (h_hom P1) 1 n d) _ _ s s' Hs0 Es).
    intros t st t' _ Ht Et n d. rewrite (higher_page_row_other S' cp t st t' ltac:(lia) Et) by lia. apply Ht. }
  assert (H11 : forall d, (d < m)%nat -> exists Q Q', first_page_row rnd S' Q d = Ok Q' /\ forall n, tget (h_hom P1) 1 n d = tget (h_hom Q') 1 n d).
  { intros d Hd. assert (Hin : In d (seq 0 m)) by (apply in_seq; lia). destruct (foldM_split _ _ _ _ d Hin E1) as (l1 & l2 & s1 & s2 & El & F1 & F2 & F3).
    exists s1, s2. split; [exact F2|].
    assert (Hl2 : forall x, In x l2 -> x <> d).
    { intros x Hx. pose proof (seq_NoDup m 0) as ND. rewrite El in ND. apply NoDup_remove_2 in ND. intros ->. apply ND. apply in_or_app. auto. }
    refine (foldM_inv _ (fun Q => forall n, tget (h_hom Q) 1 n d = tget (h_hom s2) 1 n d) _ _ s2 P1 (fun _ => eq_refl) F3).
    intros t x t' Hx Ht Et n. rewrite (first_page_row_other S' t x t' Et) by (apply not_eq_sym; apply Hl2; exact Hx). apply Ht. }
  assert (HL : (0 < length nerve)%nat) by (pose proof (cov_dim _ _ _ _ (mv_cover _ _ _ _ _ _ _ _ HI)); destruct nerve; [congruence|cbn; lia]).
  intros n d Hn Hd. destruct (H11 d Hd) as (Q & Q' & EQ & HQ).
  assert (Hr : forall x y, local_end n0 nerve S' d x -> local_end n0 nerve S' d y -> rnd x <= rnd y -> x <= y).
  { intros x y Hx Hy. apply Hrnd; apply (end_value S' PO d); auto. }
  split.
  - intros [X1 X2]. destruct (Nat.lt_ge_cases (Datatypes.S n) (length nerve)) as [Hl|Hl].
    + destruct (first_row_page _ _ _ _ _ _ _ _ _ HI S' PO HN d Hd Hr Q Q' HL EQ (Datatypes.S n) Hl) as [X _]. apply X.
      apply (over_iff _ _ _ _ _ _ _ _ _ HI S' PO HN d Hd); auto.
    + apply X1. unfold classes. destruct (level n0 nerve (Datatypes.S n)) eqn:El; [reflexivity|]. exfalso.
      pose proof (lev_lt _ _ _ _ _ _ _ _ HI S' d Hd (proj2 HN) (Datatypes.S n) 0) as X. cbv beta in X. rewrite El in X. cbn [length] in X. lia.
  - destruct (first_row_page _ _ _ _ _ _ _ _ _ HI S' PO HN d Hd Hr Q Q' HL EQ n Hn) as [_ (H & EH & HB)]. exists H. split; [|exact HB]. rewrite H12, HQ. exact EH.
Qed.
End Second.
