(** * All the pages are computed on a cover with acyclic intersections *)
From Coq Require Import QArith.
From Verif Require Import Base ListX SortX Lin Gauss_model Gauss_arith Gauss_col Gauss_solve Gauss_bar Basis_model Basis_props PH_model PH_loop PH_lin PH_step PH_props Simp_model Spec_Simp Simp_lists Simp_diff Simp_props
  Spec_PH Spec_Rips Rips_bd Rips_chain Rips_props LC_model Spec_LC LC_props SS_model Spec_SS SS_inv SS_page SS_cech SS_glue SS_e2 SS_lift SS_zig SS_first SS_double SS_fplift
  IK_model IK_lin IK_abs IK_quot IK_mph MPH_props Spec_IK Spec_Bars Bars MPH_bars Bars_weak Bars_complex Spec_MV Spec_E2 Spec_Two Spec_Ext Ext_props Spec_Elder Ext_elder Blocks SS_rows Cover_model HP_model HP_table HP_row HP_gens HP_second HP_zero HP_pages HP_perm HP_two Two_col Two_fam HP_ext HP_diag
  IK_rng SS_rng HP_shape HP_higher HP_first HP_deg Spec_Cech Spec_Nerve Nerve_pages Nerve_tables Nerve_strict Nerve_higher.
From Coq Require Import Sorted Permutation Znumtheory.
Local Open Scope Z_scope.
Local Notation e0 := (LEntry [] LNil).

Lemma mapM_const {A B} (f : A -> res B) b l : (forall x, In x l -> f x = Ok b) -> mapM f l = Ok (map (fun _ => b) l).
Proof. induction l as [|x l IH]; intros H; [reflexivity|]. cbn [mapM map]. rewrite (H x (or_introl eq_refl)). cbn [bind]. rewrite IH by (intros y Hy; apply H; right; exact Hy). reflexivity. Qed.

Section Total.
Variables (argsort : list Z -> list nat) (rnd : Z -> Z) (Dist : list (list Z)) (max_r max_dim p : Z)
  (IN : list (list (list nat))) (n0 : nat) (nerve : list (list simplex)).
Hypothesis HI : mv_input argsort Dist max_r max_dim p IN n0 nerve.
Hypothesis HN : pure_nerve n0 nerve.
Hypothesis Hrnd : forall x y, filtration_value Dist max_r x -> filtration_value Dist max_r y -> rnd x <= rnd y -> x <= y.
Hypothesis Hlen : (1 < length nerve)%nat.
Variable S : ss.
Hypothesis PO : page_ok argsort rnd Dist max_r max_dim p IN n0 nerve S.
Hypothesis HA : acyclic_cover p Dist max_r max_dim IN n0 nerve.
Let m := Z.to_nat max_dim.
Let Hp := mv_prime _ _ _ _ _ _ _ _ HI.
Local Notation lev n := (level n0 nerve n).
Local Notation np := (Z.to_nat (Z.min (max_dim + 2) (Z.of_nat (length nerve)))).
Local Notation rb := (row_bars n0 nerve S).
Let L := length nerve.
Let p_pos : 0 < p. Proof. destruct Hp. lia. Qed.
Let m_pos : (0 < m)%nat. Proof. pose proof (mv_max_dim _ _ _ _ _ _ _ _ HI). unfold m. lia. Qed.
Let npge : (2 <= np)%nat. Proof. pose proof (mv_max_dim _ _ _ _ _ _ _ _ HI). lia. Qed.
Let Hr d : (d < m)%nat -> forall x y, local_end n0 nerve S d x -> local_end n0 nerve S d y -> rnd x <= rnd y -> x <= y.
Proof. intros Hd x y Hx Hy. apply Hrnd; apply (end_value _ _ _ _ _ _ _ _ _ HI S PO d); auto. Qed.

Lemma no_level n d : (d < m)%nat -> lev n = [] -> classes n0 nerve S n d = 0%nat.
Proof. intros _ X. unfold classes. rewrite X. reflexivity. Qed.

(** Over a simplex of the nerve there are classes of degree 0 only if there are over its facets. *)
Lemma over_facets n : classes n0 nerve S (Datatypes.S n) 0 <> 0%nat -> classes n0 nerve S n 0 <> 0%nat.
Proof.
  intros H1 H0. apply H1. destruct (Nat.lt_ge_cases (Datatypes.S n) (length nerve)) as [Hn|Hn]; [|apply no_level; [exact m_pos|apply (level_out rnd Dist max_r max_dim n0 nerve HN Hrnd Hlen); exact Hn]].
  rewrite <- (rb_len n0 nerve S 0 (Datatypes.S n)). rewrite (no_row argsort rnd Dist max_r max_dim p IN n0 nerve HI S PO HN Hlen 0 (Datatypes.S n) m_pos Hn); [reflexivity|]. intros k r v Hk Hr0 [Hv _].
  assert (Empty : forall a, (a < length (lev n))%nat -> ins_of IN n a = []).
  { intros a Ha. apply (no_points argsort rnd Dist max_r max_dim p IN n0 nerve HI S PO Hlen n a 0 ltac:(lia) Ha ltac:(lia)). destruct (b_bars (hom_of S n a 0)) as [|x l] eqn:E; [reflexivity|]. exfalso.
    assert (X : (start (famlen S 0 n) a + famlen S 0 n a <= classes n0 nerve S n 0)%nat).
    { rewrite <- (rb_len n0 nerve S 0 n), row_bars_length. apply start_end. exact Ha. }
    unfold famlen at 2 in X. rewrite E in X. cbn [length] in X. lia. }
  assert (Ins : ins_of IN (Datatypes.S n) k = []).
  { destruct (ins_of IN (Datatypes.S n) k) as [|q l] eqn:E; [reflexivity|]. exfalso.
    pose proof (mv_cover _ _ _ _ _ _ _ _ HI) as CV. assert (Hq : In q (nth k (nth (Datatypes.S n) IN []) [])) by (unfold ins_of in E; rewrite E; left; reflexivity).
    pose proof (proj1 (cov_meet _ _ _ _ CV (Datatypes.S n) k q ltac:(lia) Hk) Hq) as HM.
    destruct (cov_simp _ _ _ _ CV) as (_ & _ & CF). assert (Hs : In (nth k (lev (Datatypes.S n)) []) (lev (Datatypes.S n))) by (apply nth_In; exact Hk).
    specialize (CF n _ 0%nat Hs ltac:(lia)). apply (In_nth _ _ []) in CF. destruct CF as (a & Ha & Ea).
    assert (Hqa : In q (nth a (nth n IN []) [])).
    { apply (cov_meet _ _ _ _ CV n a q ltac:(lia) Ha). intros w Hw. rewrite Ea in Hw. apply HM. unfold facet in Hw. cbn [firstn skipn app] in Hw. destruct (nth k (lev (Datatypes.S n)) []); [destruct Hw|right; exact Hw]. }
    specialize (Empty a Ha). unfold ins_of in Empty. rewrite Empty in Hqa. destruct Hqa. }
  exists (fun _ => 0). split; [intros j Hj; rewrite Zmod_0_l in Hj; congruence|]. intros j.
  assert (Z0 : local_bd IN S (Datatypes.S n) 0 k (fun _ => 0) j = 0) by (unfold local_bd; apply Zsum_0; intros; ring). rewrite Z0, Zmod_0_l. symmetry.
  destruct (Z.eq_dec (v j mod p) 0) as [X|X]; [exact X|]. exfalso. destruct (Hv j X) as [J _].
  assert (In (nth j (simplices IN S (Datatypes.S n) k 0) []) (simplices IN S (Datatypes.S n) k 0)) as HT by (apply nth_In; exact J).
  apply (GI argsort rnd Dist max_r max_dim p IN n0 nerve HI S PO (Datatypes.S n) k 0 _ Hn Hk ltac:(lia)) in HT. destruct HT as [(H2 & _) H3]. rewrite Ins in H3.
  destruct (nth j (simplices IN S (Datatypes.S n) k 0) []) as [|x s]; [discriminate|]. apply (H3 x). left. reflexivity.
Qed.

Lemma no_classes n d : (1 <= d < m)%nat -> classes n0 nerve S n d = 0%nat.
Proof. intros Hd. rewrite <- (rb_len n0 nerve S d n). rewrite (acyclic_rows argsort rnd Dist max_r max_dim p IN n0 nerve HI HN Hrnd Hlen S d n PO HA Hd). reflexivity. Qed.

Let Hcl : forall n d, (d < m)%nat -> classes n0 nerve S (Datatypes.S n) d <> 0%nat -> classes n0 nerve S n d <> 0%nat.
Proof. intros n [|d] Hd; [apply over_facets|]. intros X. rewrite no_classes in X by lia. congruence. Qed.

Let Hbs : forall n d, (n < L)%nat -> (d < m)%nat -> (n = 0%nat \/ rb d (Datatypes.S n) = []) \/ exists b0, (forall x, In x (rb d n) -> fst x = b0) /\ forall x, In x (rb d (Datatypes.S n)) -> fst x = b0.
Proof.
  intros n [|d] Hn Hd; [right; exists 0; split; intros x Hx; apply (zero_births argsort rnd Dist max_r max_dim p IN n0 nerve HI HN Hrnd Hlen S _ x PO Hd Hx)|].
  left. right. apply (acyclic_rows argsort rnd Dist max_r max_dim p IN n0 nerve HI HN Hrnd Hlen S); auto. lia.
Qed.

(** Nothing comes out of the Cech differential into the rows without classes. *)
Lemma cdl_calm n d c R : (n < L)%nat -> lev n <> [] -> (1 <= d < m)%nat ->
  exists B l, cech_diff_and_lift S n d c R = Ok (B, l) /\ many B = false /\ (exists ws, good ws l) /\ forall j, le_ref (nth j l e0) = [].
Proof.
  intros Hn Hne Hd. assert (Hd' : (d < m)%nat) by lia. destruct (cyc_ok argsort rnd Dist max_r max_dim p IN n0 nerve HI S PO n d Hn Hne Hd') as [Ec Et].
  assert (Zd : forall x, In x (SS_zig.dims n0 nerve S n d) -> x = 0%nat).
  { pose proof (no_classes n d Hd) as X. intros x Hx.
    assert (Y : list_sum (SS_zig.dims n0 nerve S n d) = 0%nat) .
    { pose proof (before_start _ _ _ _ _ _ _ _ _ HI S PO n d (length (lev n)) Hn Hd' (le_n _)) as Y.
      rewrite firstn_all2 in Y by (rewrite dims_length; apply le_n). rewrite Y, <- X, <- (rb_len n0 nerve S d n). symmetry. apply row_bars_length. }
    clear - Hx Y. induction (SS_zig.dims n0 nerve S n d) as [|y l IH]; [destruct Hx|]. cbn [list_sum fold_right] in Y. destruct Hx as [<-|Hx]; [lia|]. apply IH; [exact Hx|]. change (list_sum l) with (fold_right Nat.add 0%nat l). lia. }
  assert (Ld : length (SS_zig.dims n0 nerve S n d) = length (lev n)) by apply dims_length.
  assert (Es : spx_number S n = Ok (length (lev n))) by (apply (spx_ok argsort rnd Dist max_r max_dim p IN n0 nerve S PO n); unfold L in Hn; lia).
  unfold cech_diff_and_lift. rewrite Et. cbn [bind]. rewrite Es. cbn [bind].
  assert (Sum0 : list_sum (SS_zig.dims n0 nerve S n d) = 0%nat).
  { clear - Zd. induction (SS_zig.dims n0 nerve S n d) as [|y l IH]; [reflexivity|]. cbn [list_sum fold_right]. rewrite (Zd y (or_introl eq_refl)). apply IH. intros x Hx. apply Zd. right. exact Hx. }
  rewrite Sum0. cbn [repeat].
  assert (Fin : (exists ws, good ws (empty_chains (length (lev n)))) /\ forall j, le_ref (nth j (empty_chains (length (lev n))) e0) = []).
  { split; [exists (map (fun _ => 0%nat) (lev n)); pose proof (good_empty (map (fun _ => 0%nat) (lev n))) as X; rewrite map_length in X; exact X|]. intros j. unfold empty_chains. rewrite nth_repeat. reflexivity. }
  destruct (Nat.eqb (length R) 0); [do 2 eexists; split; [reflexivity|]; split; [reflexivity|exact Fin]|].
  assert (Eo : mapM (cech_diff_and_lift_local S R c n d) (seq 0 (length (lev n))) = Ok (map (fun _ => None) (seq 0 (length (lev n))))).
  { apply mapM_const. intros k Hk. apply in_seq in Hk. unfold cech_diff_and_lift_local. rewrite Ec. cbn [bind].
    destruct (windows_ok rnd Dist max_r max_dim p IN n0 nerve S n d k ltac:(lia)) as [W1 W2]. cbv zeta in W1, W2. rewrite W1. cbn [bind]. rewrite W2. cbn [bind].
    assert (Z1 : b_dim (hom_of S n k d) = 0%nat). { rewrite <- (dims_nth n0 nerve S n d k ltac:(lia)). apply Zd. apply nth_In. lia. }
    rewrite Z1, Nat.add_0_r, Nat.eqb_refl. reflexivity. }
  rewrite Eo. cbn [bind]. rewrite Ec. cbn [bind].
  assert (Cz : cumulate 0 (SS_zig.dims n0 nerve S n d) = repeat 0%nat (length (lev n))).
  { rewrite <- Ld. clear - Zd. induction (SS_zig.dims n0 nerve S n d) as [|y l IH]; [reflexivity|]. cbn [cumulate length repeat]. rewrite (Zd y (or_introl eq_refl)). f_equal. apply IH. intros x Hx. apply Zd. right. exact Hx. }
  rewrite Cz. rewrite app_length, repeat_length. cbn [length]. replace (length (lev n) + 1 - 1)%nat with (length (lev n)) by lia. rewrite removelast_last.
  match goal with |- context [foldM ?f ?l ?s] => assert (Fo : foldM f l s = Ok ([], empty_chains (length (lev n)), 0%nat)) end.
  { assert (G : forall j s, (s + j <= length (lev n))%nat ->
      foldM (fun (st : list vec * chains * nat) (kn : nat * nat) =>
        let '(betas, lifts, prev) := st in
        o <- nth_err (map (fun _ : nat => @None (mat * list nat * lcoord)) (seq 0 (length (lev n)))) (fst kn) ;;
        match o with
        | Some (b, ref, coord) => lifts' <- add_entry lifts (fst kn) ref coord ;; Ok (betas ++ cols b, lifts', snd kn)
        | None => Ok (betas ++ repeat (vzero (length R)) (snd kn - prev), lifts, snd kn)
        end) (combine (seq s j) (repeat 0%nat j)) ([], empty_chains (length (lev n)), 0%nat) = Ok ([], empty_chains (length (lev n)), 0%nat)).
    { induction j as [|j IH]; intros s Hs; [reflexivity|]. cbn [seq repeat combine foldM fst snd].
      rewrite (nth_err_nth _ s None) by (rewrite map_length, seq_length; lia). cbn [bind]. rewrite nth_map_seq by lia. cbn [bind Nat.sub repeat app]. apply IH. lia. }
    apply G. lia. }
  rewrite Fo. cbn [bind]. do 2 eexists. split; [reflexivity|]. split; [reflexivity|exact Fin].
Qed.

(** ** The first page *)
Lemma add_output_zero : forall outs P n P', add_output_higher P outs n 0 1 = Ok P' -> pre_ok P -> pre_ok P'.
Proof.
  induction outs as [|[[h im] pre] outs IH]; intros P n P' E HP; cbn [add_output_higher] in E; [injection E as <-; auto|].
  destruct (tset (h_preim P) 1 n 0 pre) as [a|] eqn:E1; [|discriminate]. cbn [bind] in E.
  destruct (tset (h_hom P) 1 n 0 h) as [b|] eqn:E2; [|discriminate]. cbn [bind] in E.
  destruct (tset (h_dim P) (1 + 1) n 0 (b_dim h)) as [c|] eqn:E3; [|discriminate]. cbn [bind] in E.
  destruct (tset (h_im P) 1 n 0 (Some im)) as [e|] eqn:E4; [|discriminate]. cbn [bind] in E.
  apply IH in E; [exact E|]. intros k' n' d' x Hd Ex. cbn [h_preim] in Ex. rewrite (tget_tset _ _ _ _ _ _ E1) in Ex.
  destruct (Nat.eqb k' 1 && Nat.eqb n' n && Nat.eqb d' 0) eqn:Y; [|apply (HP _ _ _ _ Hd Ex)].
  apply andb_prop in Y. destruct Y as [_ Y]. apply Nat.eqb_eq in Y. lia.
Qed.

Lemma first_row_pre P d P' : (d < m)%nat -> first_page_row rnd S P d = Ok P' -> pre_ok P -> pre_ok P'.
Proof.
  intros Hd E HP. unfold first_page_row in E. rewrite (po_nerve _ _ _ _ _ _ _ _ _ _ PO) in E. rewrite (row_bases _ _ _ _ _ _ _ _ _ HI S PO HN d Hd (Hr d Hd)) in E. cbn [bind] in E.
  destruct (mapM _ (seq 0 (length nerve))) as [diffs|] eqn:ED; [|discriminate]. cbn [bind] in E.
  destruct (module_persistence_homology _ _ _ _) as [[[Hom Im] Pre]|] eqn:EM; [|discriminate]. cbn [bind] in E.
  destruct (add_output_higher _ _ _ _ _) as [P1|] eqn:EA; [|discriminate]. cbn [bind] in E.
  assert (X : h_preim P' = h_preim P1).
  { refine (foldM_inv _ (fun Q => h_preim Q = h_preim P1) _ _ P1 P' eq_refl E). intros s x s' _ Hs Es. destruct (tget (h_hom s) 1 x d) as [h|]; [|discriminate]. cbn [bind] in Es.
    destruct (Nat.ltb _ _); [|injection Es as <-; exact Hs]. apply two_page_hom in Es. destruct Es as (_ & _ & -> & _). exact Hs. }
  unfold pre_ok. rewrite X. fold (pre_ok P1). destruct d as [|d]; [apply (add_output_zero _ _ _ _ EA HP)|].
  assert (Z : forall n, b_dim (row_base n0 nerve S (Datatypes.S d) n) = 0%nat).
  { intros n. cbn [row_base b_dim]. rewrite (acyclic_rows argsort rnd Dist max_r max_dim p IN n0 nerve HI HN Hrnd Hlen S _ n PO HA) by (unfold m in Hd; lia). reflexivity. }
  pose proof (proj1 (mapM_Ok _ _ _ ED)) as LD. rewrite seq_length in LD. clear ED. rename LD into ED.
  assert (exists L', length nerve = Datatypes.S L') as [L' EL] by (exists (length nerve - 1)%nat; lia).
  rewrite EL in EM, ED. cbn [seq map] in EM.
  destruct (mph_apart rnd diffs (row_base n0 nerve S (Datatypes.S d) 0) (map (row_base n0 nerve S (Datatypes.S d)) (seq 1 L')) (s_p S)) as (Hom' & Im' & Pre' & EM' & HPre).
  - rewrite map_length, seq_length. exact ED.
  - right. apply Z.
  - intros e He. right. destruct e as [|e]; [apply Z|]. cbn [nth]. rewrite (nth_indep _ _ (row_base n0 nerve S (Datatypes.S d) 0)) by lia. rewrite map_nth. apply Z.
  - rewrite EM in EM'. injection EM' as <- <- <-. apply (add_output_pre 1 _ _ _ _ _ EA); [|exact HP]. intros [[h i] pre] Ho. apply in_combine_r in Ho. cbn [snd]. auto.
Qed.

Lemma nonempty_below n : rb 0 n <> [] -> forall n', (n' < n)%nat -> lev n' <> [].
Proof.
  intros Hn n' Hn'. assert (X : forall j, (j <= n)%nat -> classes n0 nerve S (n - j) 0 <> 0%nat).
  { induction j as [|j IH]; intros Hj.
    - rewrite Nat.sub_0_r. rewrite <- (rb_len n0 nerve S 0 n). destruct (rb 0 n); [congruence|discriminate].
    - apply over_facets. replace (Datatypes.S (n - Datatypes.S j)) with (n - j)%nat by lia. apply IH. lia. }
  intros Y. apply (X (n - n')%nat); [lia|]. replace (n - (n - n'))%nat with n' by lia. apply no_level; [exact m_pos|exact Y].
Qed.

Theorem pages_total : exists P1 P2, foldM (first_page_row rnd S) (seq 0 m) (init_pages np (1 + length nerve) m) = Ok P1 /\
  foldM (fun P cp => foldM (higher_page_row rnd S cp) (flat_map (fun n => map (fun d => (n, d)) (seq 0 m)) (seq 0 cp)) P) (seq 2 (np - 2)) P1 = Ok P2 /\
  shape np (1 + length nerve) m P2 /\ (forall n d, (n < length nerve)%nat -> (d < m)%nat -> ranges p P2 d n) /\ rep_ok (fun n => lev n <> []) P2 (np - 1).
Proof.
  destruct (first_page_total argsort rnd Dist max_r max_dim p IN n0 nerve HI S PO HN Hlen Hr Hcl Hbs np (1 + length nerve) (init_pages np (1 + length nerve) m) npge ltac:(lia) (init_shape _ _ _)) as (P1 & E1 & SH1 & R1).
  fold m in E1, SH1, R1. destruct (nerve_first argsort rnd Dist max_r max_dim p IN n0 nerve HI HN Hrnd Hlen S PO HA P1 E1) as (First & Calm & Pr & Out).
  assert (Pre : pre_ok P1).
  { refine (foldM_inv _ pre_ok _ _ _ _ _ E1).
    - intros s x s' Hx Hs Es. apply in_seq in Hx. apply (first_row_pre s x s'); auto. lia.
    - intros k n d x _ Ex. unfold init_pages in Ex. cbn [h_preim] in Ex. apply tget_init_eq in Ex. exact Ex. }
  assert (Rep : forall k, (2 - 1 <= k)%nat -> rep_ok (fun n => lev n <> []) P1 k).
  { intros k Hk n H EH Hb. destruct (Nat.eq_dec k 1) as [->|Hne].
    - destruct (Nat.lt_ge_cases n (length nerve)) as [Hn|Hn].
      2:{ exfalso. assert (Y : tget (h_hom P1) 1 n 0 = tget (h_hom (init_pages np (1 + length nerve) m)) 1 n 0).
          { refine (foldM_inv _ (fun Q => tget (h_hom Q) 1 n 0 = tget (h_hom (init_pages np (1 + length nerve) m)) 1 n 0) _ _ _ P1 eq_refl E1).
            intros s x s' Hx A Es. apply in_seq in Hx. destruct (first_row_gens _ _ _ _ _ _ _ _ _ HI S PO HN x ltac:(unfold m in Hx; lia) (Hr x ltac:(lia)) _ _ ltac:(lia) Es) as [_ F].
            destruct (F n 0%nat (or_intror Hn)) as (-> & _). exact A. }
          rewrite Y in EH. unfold init_pages in EH. cbn [h_hom] in EH. apply tget_init_eq in EH. subst H. cbn in Hb. lia. }
      destruct (First n 0%nat Hn m_pos) as (H' & I & reps & X1 & X2 & X3 & X4 & X5). rewrite X1 in EH. injection EH as ->.
      destruct (ge_over _ _ _ _ _ _ _ _ _ _ _ _ X5 Hb) as ((Fl & _) & _ & _ & _ & Nr & Nc & Wf). cbn [row_base b_dim] in Nr.
      assert (Hne : rb 0 n <> []). { intros Y. pose proof (gens_empty argsort rnd Dist max_r max_dim p IN n0 nerve HI Hrnd Hlen S 0 n H I reps m_pos Y X5). lia. }
      destruct (ge_reps _ _ _ _ _ _ _ _ _ _ _ _ X5 Hb) as (rep & rest & Er & G1 & G2 & _ & G3).
      split; [exact Fl|]. split; [apply nonempty_below; exact Hne|]. split; [|split; [exact Nc|]].
      + intros Hn0. destruct n as [|n]; [lia|]. rewrite Nr. apply Nat.lt_le_incl.
        apply (strict argsort rnd Dist max_r max_dim p IN n0 nerve HI S PO (level_out rnd Dist max_r max_dim n0 nerve HN Hrnd Hlen _ (le_n _)) n H I reps Hn X5 Hne).
      + exists reps. split; [exact X4|]. rewrite Er. split; [discriminate|]. destruct n as [|n].
        * rewrite G3. split; [reflexivity|]. constructor; [|constructor]. split; [eauto|exact G2].
        * destruct G3 as (lift & -> & G4 & G5 & _). split; [reflexivity|]. constructor; [split; [eauto|exact G2]|]. constructor; [|constructor]. split; [eauto|exact G5].
    - exfalso. assert (Y : tget (h_hom P1) k n 0 = tget (h_hom (init_pages np (1 + length nerve) m)) k n 0).
      { refine (foldM_inv _ (fun Q => tget (h_hom Q) k n 0 = tget (h_hom (init_pages np (1 + length nerve) m)) k n 0) _ _ _ P1 eq_refl E1).
        intros s x s' _ A Es. destruct (first_row_off _ _ _ _ _ Es k n 0%nat Hne) as [-> _]. exact A. }
      rewrite Y in EH. unfold init_pages in EH. cbn [h_hom] in EH. apply tget_init_eq in EH. subst H. cbn in Hb. lia. }
  destruct (row_pages_total rnd S m np (1 + length nerve) (fun n => lev n <> [])) with (j := (np - 2)%nat) (cp := 2%nat) (P := P1) as (P2 & E2 & SH2 & RP2); auto.
  - rewrite (po_nerve _ _ _ _ _ _ _ _ _ _ PO). lia.
  - rewrite (po_nerve _ _ _ _ _ _ _ _ _ _ PO). lia.
  - intros n d c R Hn. rewrite (po_nerve _ _ _ _ _ _ _ _ _ _ PO) in Hn. apply cdl_calm. exact Hn.
  - pose proof npge. lia.
  - exists P1, P2. split; [exact E1|]. split; [exact E2|]. split; [exact SH2|]. replace (2 + (np - 2) - 1)%nat with (np - 1)%nat in RP2 by (pose proof npge; lia). split; [|exact RP2].
    destruct (row_pages rnd S m (np - 2) 2 P1 P2 (le_n 2) E2 Calm Pr) as (A1 & _).
    intros n d Hn Hd. destruct (R1 n d Hn Hd) as (H & I & Y1 & Y2 & Y3). destruct (A1 1%nat n d ltac:(lia)) as (B1 & B2 & _). exists H, I. rewrite B1, B2. auto.
Qed.
End Total.
