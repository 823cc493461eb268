(** * The first entry of [persistent_homology] *)
From Coq Require Import QArith.
From Verif Require Import Base ListX SortX Lin Gauss_model Gauss_arith Gauss_solve Basis_model Basis_props PH_model PH_loop PH_lin PH_props Simp_model Spec_Simp Simp_lists Simp_diff Simp_props
  Spec_PH Spec_Basis Spec_Rips Rips_bd Rips_chain Rips_props LC_model Spec_LC LC_props SS_model Spec_SS SS_inv SS_page SS_cech SS_lift SS_zig SS_first SS_double
  IK_model IK_lin IK_abs IK_quot IK_mph MPH_props Spec_IK Spec_Bars Bars MPH_bars Bars_complex Spec_MV Spec_E2 Blocks SS_rows SS_glue SS_zero Cover_model HP_model HP_table HP_row HP_second.
From Coq Require Import Sorted Permutation Znumtheory.
Local Open Scope Z_scope.

Lemma barcode_perm {X} p (Zs Bs : Z -> (X -> Z) -> Prop) M b1 b2 : Permutation b1 b2 -> barcode p Zs Bs M b1 -> barcode p Zs Bs M b2.
Proof.
  intros HP [H1 H2]. split; [intros x Hx; apply H1; apply (Permutation_in x (Permutation_sym HP)); auto|].
  intros r s Hrs. destruct (H2 r s Hrs) as (g & Hg). exists g.
  assert (E : forall f, count_bars f b1 = count_bars f b2).
  { intros f. unfold count_bars. clear -HP. induction HP as [|x a b _ IH|x y a|a b c _ IH1 _ IH2]; cbn [filter]; auto; [destruct (f x)|destruct (f x), (f y)|]; cbn [length]; congruence. }
  rewrite <- E. exact Hg.
Qed.

Lemma nontrivial_all bars : (forall x, In x bars -> fst x < snd x) -> filter nontrivial bars = bars.
Proof.
  induction bars as [|x l IH]; intros H; auto. cbn [filter]. assert (E : nontrivial x = true) by (unfold nontrivial; apply Z.ltb_lt; apply H; left; auto).
  rewrite E, IH; auto. intros y Hy. apply H. right. auto.
Qed.

(** ** The homology of a complex with one module *)
Lemma mph_single rnd D B p Hom Im Pre : (forall x, In x (b_bars B) -> fst x < snd x) -> module_persistence_homology rnd D [B] p = Ok (Hom, Im, Pre) ->
  exists H, Hom = [H] /\ length Im = 1%nat /\ length Pre = 1%nat /\ Permutation (b_bars B) (b_bars H).
Proof.
  intros HB E. unfold module_persistence_homology in E. change (nth_err [B] (length [B] - 1)) with (Ok B) in E. cbn [bind length Nat.sub mph_loop] in E.
  destruct (empty_over B) as [e|] eqn:Ee; [|discriminate]. cbn [bind mph_loop] in E.
  destruct (Nat.eqb (b_dim B) 0).
  { cbn [bind] in E. injection E as <- <- <-. exists B. repeat split; auto. }
  destruct (mk_basis false (b_bars B) (Some B) _ false false None) as [K|] eqn:EK; [|discriminate]. cbn [bind] in E.
  apply mk_basis_bars in EK. destruct EK as [EK _]. rewrite nontrivial_all in EK by auto.
  unfold b_sort in E. destruct (b_flat K); [discriminate|]. match type of E with context [match b_prev K with Some _ => ?a | None => ?b end] => destruct (match b_prev K with Some _ => a | None => b end) as [co|]; [|discriminate] end. cbn [bind] in E. change (nth_err [e] 0) with (Ok e) in E. cbn [bind] in E.
  apply mk_basis_bars in Ee. destruct Ee as [_ Ee]. unfold quotient in E. rewrite Ee in E. cbn [filter length Nat.eqb bind] in E. injection E as <- <- <-.
  eexists. split; [reflexivity|]. do 2 (split; [reflexivity|]). cbn [b_bars]. rewrite <- EK. unfold take.
  rewrite <- (map_nth_seq (b_bars K) (0, 0)) at 1. apply Permutation_map. apply sort_order_perm.
Qed.

(** ** The corner on the higher pages *)
Lemma higher_corner rnd S cp P P' B : (2 <= cp)%nat -> (0 < length (s_nerve S))%nat -> (forall x, In x (b_bars B) -> fst x < snd x) ->
  higher_page_row rnd S cp P (0, 0)%nat = Ok P' -> tget (h_hom P) (cp - 1) 0 0 = Ok B ->
  exists H, tget (h_hom P') cp 0 0 = Ok H /\ Permutation (b_bars B) (b_bars H).
Proof.
  intros Hcp HL HB E EB. unfold higher_page_row in E. cbn [fst snd] in E. cbn [Nat.add positions] in E.
  destruct (Nat.ltb_spec 0 (length (s_nerve S))) as [_|]; [|lia]. destruct (Nat.leb_spec (cp - 1) 0) as [|_]; [lia|]. cbn [mapM fst snd tl] in E. rewrite EB in E. cbn [bind] in E.
  destruct (module_persistence_homology _ _ _ _) as [[[Hom Im] Pre]|] eqn:EM; [|discriminate]. cbn [bind] in E.
  destruct (mph_single _ _ _ _ _ _ _ HB EM) as (H & -> & LI & LP & HP). destruct Im as [|im [|]]; cbn in LI; try lia. destruct Pre as [|pre [|]]; cbn in LP; try lia. cbn [combine] in E.
  destruct (add_output_higher _ _ _ _ _) as [P1|] eqn:EA; [|discriminate]. cbn [bind] in E.
  destruct (add_output_same _ _ _ _ _ _ (Nat.lt_le_trans 0 2 cp Nat.lt_0_2 Hcp) EA 0%nat H im pre eq_refl) as (X & _). cbn [Nat.mul Nat.add] in X.
  exists H. split; [|exact HP]. rewrite <- X. f_equal.
  refine (foldM_inv _ (fun Q => h_hom Q = h_hom P1) _ _ P1 P' eq_refl E). intros s x s' _ Hs Es. apply higher_hom in Es. destruct Es as [-> _]. exact Hs.
Qed.

Lemma higher_corner_other rnd S cp P st P' : (2 <= cp)%nat -> st <> (0, 0)%nat -> higher_page_row rnd S cp P st = Ok P' -> tget (h_hom P') cp 0 0 = tget (h_hom P) cp 0 0.
Proof.
  intros Hcp Hst. destruct st as [n d]. unfold higher_page_row. intros E. destruct (mapM _ _) as [base|]; [|discriminate]. cbn [bind] in E. destruct (mapM _ _) as [diffs|]; [|discriminate]. cbn [bind] in E.
  destruct (module_persistence_homology _ _ _ _) as [[[Hom Im] Pre]|]; [|discriminate]. cbn [bind] in E.
  destruct (add_output_higher _ _ _ _ _) as [P1|] eqn:EA; [|discriminate]. cbn [bind] in E.
  transitivity (tget (h_hom P1) cp 0 0).
  - f_equal. refine (foldM_inv _ (fun Q => h_hom Q = h_hom P1) _ _ P1 P' eq_refl E). intros s x s' _ Hs Es. apply higher_hom in Es. destruct Es as [-> _]. exact Hs.
  - apply (add_output_row _ _ _ _ _ _ (Nat.lt_le_trans 0 2 cp Nat.lt_0_2 Hcp) EA). cbn [fst snd]. intros i _. destruct n as [|n]; [|left; lia]. destruct i as [|i]; [|left; nia]. right. destruct d; [congruence|lia].
Qed.

Lemma first_row_zero rnd S P d P' : first_page_row rnd S P d = Ok P' -> forall n' d', tget (h_hom P') 0 n' d' = tget (h_hom P) 0 n' d'.
Proof.
  unfold first_page_row. intros E n' d'. destruct (mapM _ _) as [base|]; [|discriminate]. cbn [bind] in E. destruct (mapM _ _) as [diffs|]; [|discriminate]. cbn [bind] in E.
  destruct (module_persistence_homology _ _ _ _) as [[[Hom Im] Pre]|]; [|discriminate]. cbn [bind] in E.
  destruct (add_output_higher _ _ _ _ _) as [P1|] eqn:EA; [|discriminate]. cbn [bind] in E.
  transitivity (tget (h_hom P1) 0 n' d').
  - f_equal. refine (foldM_inv _ (fun Q => h_hom Q = h_hom P1) _ _ P1 P' eq_refl E). intros s x s' _ Hs Es. destruct (tget (h_hom s) 1 x d) as [h|]; [|discriminate]. cbn [bind] in Es.
    destruct (Nat.ltb _ _); [|injection Es as <-; exact Hs]. apply two_page_hom in Es. destruct Es as [-> _]. exact Hs.
  - apply (add_output_other _ _ _ _ _ _ ltac:(auto) EA). auto.
Qed.

Lemma pages_corner rnd S m : (0 < length (s_nerve S))%nat -> (0 < m)%nat -> forall j cp P P' B, (2 <= cp)%nat -> (forall x, In x (b_bars B) -> fst x < snd x) ->
  foldM (fun P cp => foldM (higher_page_row rnd S cp) (flat_map (fun n => map (fun d => (n, d)) (seq 0 m)) (seq 0 cp)) P) (seq cp j) P = Ok P' ->
  tget (h_hom P) (cp - 1) 0 0 = Ok B -> exists H, tget (h_hom P') (cp + j - 1) 0 0 = Ok H /\ Permutation (b_bars B) (b_bars H).
Proof.
  intros HL Hm. induction j as [|j IH]; intros cp P P' B Hcp HB E EB; cbn [seq foldM] in E.
  { injection E as <-. exists B. rewrite Nat.add_0_r. auto. }
  match type of E with bind ?x _ = _ => destruct x as [Q|] eqn:EQ; [|discriminate] end. cbn [bind] in E.
  assert (HQ : exists H, tget (h_hom Q) cp 0 0 = Ok H /\ Permutation (b_bars B) (b_bars H)).
  { set (l := flat_map (fun n => map (fun d => (n, d)) (seq 0 m)) (seq 0 cp)) in *.
    assert (El : exists l', l = (0, 0)%nat :: l' /\ ~ In (0, 0)%nat l').
    { unfold l. destruct cp as [|cp]; [lia|]. destruct m as [|m']; [lia|]. cbn [seq flat_map map app]. eexists. split; [reflexivity|].
      intros X. apply in_app_or in X. destruct X as [X|X].
      - apply in_map_iff in X. destruct X as (d & X & Hd). injection X as ->. apply in_seq in Hd. lia.
      - apply in_flat_map in X. destruct X as (n & Hn & X). apply in_seq in Hn. destruct X as [X|X]; [injection X as ->; lia|]. apply in_map_iff in X. destruct X as (d & X & Hd). injection X as -> _. lia. }
    destruct El as (l' & El & Hno). rewrite El in EQ. cbn [foldM] in EQ. destruct (higher_page_row rnd S cp P (0, 0)%nat) as [Q1|] eqn:E1; [|discriminate]. cbn [bind] in EQ.
    destruct (higher_corner rnd S cp P Q1 B Hcp HL HB E1 EB) as (H & EH & HP). exists H. split; [|exact HP]. rewrite <- EH.
    refine (foldM_inv _ (fun R => tget (h_hom R) cp 0 0 = tget (h_hom Q1) cp 0 0) _ _ Q1 Q eq_refl EQ). intros s x s' Hx Hs Es.
    rewrite (higher_corner_other rnd S cp s x s' Hcp) by (auto; congruence). exact Hs. }
  destruct HQ as (H & EH & HP). destruct (IH (Datatypes.S cp) Q P' H ltac:(lia)) as (H' & EH' & HP'); auto.
  - intros x Hx. apply HB. apply (Permutation_in x (Permutation_sym HP)). exact Hx.
  - cbn [Nat.sub]. rewrite Nat.sub_0_r. exact EH.
  - exists H'. replace (cp + Datatypes.S j - 1)%nat with (Datatypes.S cp + j - 1)%nat by lia. split; [exact EH'|]. apply (Permutation_trans HP HP').
Qed.

Section Zero.
Variables (argsort : list Z -> list nat) (rnd : Z -> Z) (Dist : list (list Z)) (max_r max_dim p : Z)
  (IN : list (list (list nat))) (n0 : nat) (nerve : list (list simplex)).
Hypothesis HI : mv_input argsort Dist max_r max_dim p IN n0 nerve.
Hypothesis HN : pure_nerve n0 nerve.
Hypothesis Hrnd : forall x y, filtration_value Dist max_r x -> filtration_value Dist max_r y -> rnd x <= rnd y -> x <= y.
Let m := Z.to_nat max_dim.

Theorem first_bars S P Hs : mv_ss argsort rnd Dist max_r max_dim p IN n0 nerve = Ok (S, P, Hs) ->
  exists H0 Hs', Hs = H0 :: Hs' /\ barcode p (page2_cycle p Dist IN n0 nerve S 0 0) (page2_bounds p Dist IN n0 nerve S 0 0) max_r (b_bars H0).
Proof.
  intros E. assert (Hm : (0 < m)%nat) by (pose proof (mv_max_dim _ _ _ _ _ _ _ _ HI); unfold m; lia).
  assert (HL : (0 < length nerve)%nat) by (pose proof (cov_dim _ _ _ _ (mv_cover _ _ _ _ _ _ _ _ HI)); destruct nerve; [congruence|cbn; lia]).
  destruct (second_page _ _ _ _ _ _ _ _ _ HI HN Hrnd S P Hs E 0%nat 0%nat HL Hm) as (_ & B & EB & Hbar).
  unfold mv_ss in E. destruct (zero_page argsort rnd Dist max_r max_dim p IN n0 nerve) as [S'|] eqn:EZ; [|discriminate]. cbn [bind] in E.
  pose proof (zero_page_ok _ _ _ _ _ _ _ _ _ HI S' EZ) as PO. rewrite (po_rows _ _ _ _ _ _ _ _ _ _ PO) in E. fold m in E.
  match type of E with bind ?x _ = _ => destruct x as [P1|] eqn:E1; [|discriminate] end. cbn [bind] in E.
  match type of E with bind ?x _ = _ => destruct x as [P2|] eqn:E2; [|discriminate] end. cbn [bind] in E.
  destruct (tget (h_hom P2) _ 0 0) as [H0|] eqn:EH; [|discriminate]. cbn [bind] in E. destruct (mapM _ _) as [Hs'|]; [|discriminate]. cbn [bind] in E. injection E as <- <- <-.
  do 2 eexists. split; [reflexivity|]. set (np := Z.to_nat (Z.min (max_dim + 2) (Z.of_nat (length nerve)))) in *.
  assert (Hbars : forall x, In x (b_bars B) -> fst x < snd x) by (intros x Hx; apply (proj1 Hbar) in Hx; lia).
  assert (Hnp : (2 <= np)%nat).
  { destruct (Nat.le_gt_cases 2 np) as [|Hlt]; auto. exfalso.
    assert (X : forall n d, tget (h_hom P2) 0 n d = tget (h_hom (init_pages np (1 + length nerve) m)) 0 n d).
    { replace (np - 2)%nat with 0%nat in E2 by lia. cbn [seq foldM] in E2. injection E2 as <-.
      refine (foldM_inv _ (fun Q => forall n d, tget (h_hom Q) 0 n d = tget (h_hom (init_pages np (1 + length nerve) m)) 0 n d) _ _ _ P1 (fun _ _ => eq_refl) E1).
      intros s x s' _ Hs0 Es n d. rewrite (first_row_zero rnd S' s x s' Es). apply Hs0. }
    replace (np - 1)%nat with 0%nat in EH by lia. rewrite X in EH. discriminate. }
  assert (EB1 : tget (h_hom P1) 1 0 0 = Ok B).
  { rewrite <- EB. symmetry. refine (foldM_inv _ (fun Q => tget (h_hom Q) 1 0 0 = tget (h_hom P1) 1 0 0) _ _ P1 P2 eq_refl E2).
    intros s cp s' Hcp Hs0 Es. apply in_seq in Hcp. refine (foldM_inv _ (fun Q => tget (h_hom Q) 1 0 0 = tget (h_hom P1) 1 0 0) _ _ s s' Hs0 Es).
    intros t st t' _ Ht Et. rewrite (higher_page_row_other rnd S' cp t st t' ltac:(lia) Et) by lia. apply Ht. }
  destruct (pages_corner rnd S' m ltac:(rewrite (po_nerve _ _ _ _ _ _ _ _ _ _ PO); exact HL) Hm (np - 2) 2 P1 P2 B ltac:(lia) Hbars E2 EB1) as (H & X & HP).
  replace (2 + (np - 2) - 1)%nat with (np - 1)%nat in X by lia. rewrite X in EH. injection EH as ->.
  apply (barcode_perm _ _ _ _ _ _ HP). exact Hbar.
Qed.
End Zero.

Lemma barcode_trivial {X} p (p1 : 1 < p) (Zs Bs : Z -> (X -> Z) -> Prop) M bars : (forall r v, Zs r v -> forall x, v x mod p = 0) -> (forall r v, (forall x, v x mod p = 0) -> Bs r v) ->
  barcode p Zs Bs M bars -> bars = [].
Proof.
  intros HZ HB [H1 H2]. destruct bars as [|b bars]; auto. exfalso. specialize (H1 b (or_introl eq_refl)). destruct (H2 (fst b) (fst b) ltac:(lia)) as (g & G1 & _ & G3).
  assert (Hpos : (0 < count_bars (spans (fst b) (fst b)) (b :: bars))%nat).
  { unfold count_bars. cbn [filter]. replace (spans (fst b) (fst b) b) with true; [cbn; lia|]. symmetry. unfold spans. apply andb_true_iff. rewrite Z.leb_le, Z.ltb_lt. lia. }
  assert (X0 : (if Nat.eqb 0 0 then 1 else 0) mod p = 0).
  { apply (G3 (fun k => if Nat.eqb k 0 then 1 else 0) ltac:(tauto)); [|exact Hpos]. apply HB. intros x. apply mod_cong_0; [lia|]. apply Zsum_cong0. intros k Hk.
    pose proof (HZ _ _ (G1 k Hk Logic.I) x) as Y. apply mod_cong_0 in Y; [|lia]. rewrite Y. apply cong_eq. ring. }
  cbn in X0. rewrite Z.mod_small in X0; lia.
Qed.

(** ** The degree 0 of the result *)
Theorem mv_degree_zero argsort rnd Dist max_r max_dim p IN n0 nerve S P Hs : mv_input argsort Dist max_r max_dim p IN n0 nerve -> pure_nerve n0 nerve ->
  (forall x y, filtration_value Dist max_r x -> filtration_value Dist max_r y -> rnd x <= rnd y -> x <= y) ->
  fine Dist max_r IN n0 0 -> fine Dist max_r IN n0 1 ->
  (forall a b q, (a < n0)%nat -> (b < n0)%nat -> In q (ins_of IN 0 a) -> In q (ins_of IN 0 b) -> linked IN n0 nerve q a b) ->
  mv_ss argsort rnd Dist max_r max_dim p IN n0 nerve = Ok (S, P, Hs) ->
  exists H0 Hs', Hs = H0 :: Hs' /\ rips_barcode p Dist max_r 0 (b_bars H0).
Proof.
  intros HI HN Hrnd Hf0 Hf1 Hlink E. destruct (first_bars _ _ _ _ _ _ _ _ _ HI HN Hrnd S P Hs E) as (H0 & Hs' & EH & Hb). exists H0, Hs'. split; auto.
  unfold mv_ss in E. destruct (zero_page argsort rnd Dist max_r max_dim p IN n0 nerve) as [S'|] eqn:EZ; [|discriminate]. cbn [bind] in E.
  match type of E with bind ?x _ = _ => destruct x as [P1|] eqn:E1; [|discriminate] end. cbn [bind] in E.
  match type of E with bind ?x _ = _ => destruct x as [P2|] eqn:E2; [|discriminate] end. cbn [bind] in E.
  destruct (tget (h_hom P2) _ 0 0); [|discriminate]. cbn [bind] in E. destruct (mapM _ _); [|discriminate]. cbn [bind] in E. injection E as E' _ _. subst S'.
  apply (corner_barcode argsort rnd Dist max_r max_dim p IN n0 nerve HI S (zero_page_ok _ _ _ _ _ _ _ _ _ HI S EZ) (proj2 HN) Hf0 Hf1 Hlink). exact Hb.
Qed.

(** A cover without elements has no bars in degree 0. *)
Theorem mv_no_cover argsort rnd Dist max_r max_dim p IN nerve S P Hs : mv_input argsort Dist max_r max_dim p IN 0 nerve -> pure_nerve 0 nerve ->
  (forall x y, filtration_value Dist max_r x -> filtration_value Dist max_r y -> rnd x <= rnd y -> x <= y) ->
  mv_ss argsort rnd Dist max_r max_dim p IN 0 nerve = Ok (S, P, Hs) -> exists H0 Hs', Hs = H0 :: Hs' /\ b_bars H0 = [].
Proof.
  intros HI HN Hrnd E. destruct (first_bars _ _ _ _ _ _ _ _ _ HI HN Hrnd S P Hs E) as (H0 & Hs' & EH & Hb). exists H0, Hs'. split; auto.
  pose proof (mv_prime _ _ _ _ _ _ _ _ HI) as Hp. assert (p1 : 1 < p) by (destruct Hp; lia).
  assert (Hout : forall r v, fam_cycle p Dist IN 0 nerve S 0 0 r v -> forall x, v x mod p = 0) by (intros r v [Hv _] [k j]; apply Hv; cbn; lia).
  apply (barcode_trivial p p1 (page2_cycle p Dist IN 0 nerve S 0 0) (page2_bounds p Dist IN 0 nerve S 0 0) max_r (b_bars H0)); [| |exact Hb].
  - intros r v [Hv _]. apply (Hout r v Hv).
  - intros r v Hv. split; [split; [intros k j _; apply Hv|intros k Hk; cbn in Hk; lia]|]. exists (fun _ => 0). split.
    + apply (fam_cycle_sub argsort Dist max_r max_dim p IN 0 nerve HI S 0 1 r 0%nat (fun _ => 0) (fun _ _ => 0)); [intros t Ht; lia|reflexivity].
    + split; [|intros k Hk; cbn in Hk; lia]. intros k j _. unfold fam_cech. cbn [level seq map length Nat.ltb Nat.leb]. rewrite Z.sub_0_r. apply Hv.
Qed.
