(** * What is known of chains that [first_page_lift] lifts *)
From Verif Require Import Base ListX SortX Lin Gauss_model Gauss_arith Gauss_solve Basis_model PH_model PH_lin PH_clear PH_step PH_props Simp_model Spec_Simp Simp_lists Simp_diff Simp_props
  Spec_PH Spec_Rips Rips_bd Rips_chain Rips_props LC_model Spec_LC LC_props SS_model Spec_SS SS_inv SS_page SS_cech SS_lift SS_zig SS_first SS_double
  SS_fplift IK_lin IK_abs IK_quot IK_mph Spec_IK Spec_Bars Bars MPH_bars Rips_bars Bars_complex Spec_E2 Blocks SS_rows HP_table Two_col.
From Coq Require Import Sorted Permutation Znumtheory.
Local Open Scope Z_scope.

Local Notation e0 := (LEntry [] LNil).

Lemma mapM_ext' {A B} (f g : A -> res B) l : (forall x, In x l -> f x = g x) -> mapM f l = mapM g l.
Proof. induction l as [|x l IH]; intros H; cbn [mapM]; [reflexivity|]. rewrite H by (left; reflexivity). rewrite IH by (intros y Hy; apply H; right; exact Hy). reflexivity. Qed.

Lemma pick_fun {A} (d : A) n (P : nat -> A -> Prop) : (forall k, (k < n)%nat -> exists w, P k w) -> exists f, forall k, (k < n)%nat -> P k (f k).
Proof.
  induction n as [|n IH]; intros H; [exists (fun _ => d); intros k Hk; lia|].
  destruct IH as [f Hf]; [intros k Hk; apply H; lia|]. destruct (H n ltac:(lia)) as [w Hw]. exists (fun k => if Nat.eqb k n then w else f k).
  intros k Hk. destruct (Nat.eqb_spec k n) as [->|Hne]; [exact Hw|apply Hf; lia].
Qed.

(** The chains [c] with the entries marked by [dead] removed. *)
Definition wipe (dead : nat -> bool) (c : chains) : chains := map (fun k => if dead k then e0 else nth k c e0) (seq 0 (length c)).

Lemma wipe_length dead c : length (wipe dead c) = length c.
Proof. unfold wipe. rewrite map_length, seq_length. reflexivity. Qed.

Lemma wipe_nth dead c k : nth k (wipe dead c) e0 = if dead k then e0 else nth k c e0.
Proof.
  destruct (Nat.lt_ge_cases k (length c)) as [H|H]; [unfold wipe; rewrite nth_map_seq by exact H; reflexivity|].
  rewrite !nth_overflow by (rewrite ?wipe_length; exact H). destruct (dead k); reflexivity.
Qed.

Lemma wipe_good ws dead c : good ws c -> good ws (wipe dead c).
Proof.
  intros G. apply good_intro; [rewrite wipe_length; apply good_length; exact G|]. intros k Hk. rewrite wipe_nth. destruct (dead k); [split; [constructor|reflexivity]|apply good_nth; auto].
Qed.

Lemma wipe_refs dead c k g : In g (le_ref (nth k (wipe dead c) e0)) -> In g (le_ref (nth k c e0)).
Proof. rewrite wipe_nth. destruct (dead k); [intros []|auto]. Qed.

Lemma wipe_value dead c k g j : value (wipe dead c) k g j = if dead k then 0 else value c k g j.
Proof. unfold value. rewrite wipe_nth. destruct (dead k); reflexivity. Qed.

Section Conv.
Variables (argsort : list Z -> list nat) (rnd : Z -> Z) (Dist : list (list Z)) (max_r max_dim p : Z)
  (IN : list (list (list nat))) (n0 : nat) (nerve : list (list simplex)).
Hypothesis HI : mv_input argsort Dist max_r max_dim p IN n0 nerve.
Variable S : ss.
Hypothesis PO : page_ok argsort rnd Dist max_r max_dim p IN n0 nerve S.
Let m := Z.to_nat max_dim.
Let lev n := level n0 nerve n.
Let Hp := mv_prime _ _ _ _ _ _ _ _ HI.
Let p_pos : 0 < p. Proof. destruct Hp. lia. Qed.
Let loc := loc_of S.
Local Notation G := (simplices IN S).
Local Notation widths := (sizes IN n0 nerve S).

Section One.
Variables (n deg k : nat).
Hypothesis Hn : (n < length nerve)%nat.
Hypothesis Hd : (deg < m)%nat.
Hypothesis Hk : (k < length (lev n))%nat.

(** The columns of the two bases found over a simplex are cycles from the radius of their birth on. *)
Lemma hom_cycle h r : (h < length (b_bars (hom_of S n k deg)))%nat -> bbirth (b_bars (hom_of S n k deg)) h <= r ->
  local_cycle p Dist IN S n deg k r (colv (b_coords (hom_of S n k deg)) h).
Proof.
  intros Hh Hr. destruct (loc_pb _ _ _ _ _ _ _ _ _ HI S PO n k deg Hn Hk Hd) as (PB & HQ & _).
  pose proof (pb_bar p max_r _ _ _ _ (loc_pb _ _ _ _ _ _ _ _ _ HI S PO n k deg Hn Hk Hd) h Hh) as Hb.
  destruct (HQ (bbirth (b_bars (hom_of S n k deg)) h)) as (H1 & _); [lia|].
  eapply local_cycle_mono; [exact Hr|]. apply H1; [exact Hh|]. lia.
Qed.

Lemma im_cycle a r : (a < length (b_bars (im_of S n k deg)))%nat -> bbirth (b_bars (im_of S n k deg)) a <= r ->
  local_cycle p Dist IN S n deg k r (colv (b_coords (im_of S n k deg)) a).
Proof.
  intros Ha Hr. eapply local_cycle_mono; [exact Hr|]. apply (local_bounds_cycle _ _ _ _ _ _ _ _ _ HI S PO n k deg Hn Hk Hd).
  destruct (loc_ok _ _ _ _ _ _ _ _ _ S PO n k Hn Hk) as [Rs OK]. pose proof (lo_Ds _ _ _ _ _ _ _ _ OK) as LD. fold m in LD.
  destruct (C22_aux rnd p max_r _ _ Rs _ Hp (lo_valid _ _ _ _ _ _ _ _ OK) (lo_ph _ _ _ _ _ _ _ _ OK) deg ltac:(lia)) as (P1 & _ & P3 & P4 & _).
  cbv zeta in P4. change (nth deg (ph_im (l_out (loc_of S n k))) empty_basis) with (im_of S n k deg) in P4.
  destruct (P4 a Ha) as (_ & Hch & Hbd). eexists. split.
  - apply (chain_iff _ _ _ _ _ _ _ _ _ HI S PO n k Hn Hk Rs OK); [fold m; lia|]. exact Hch.
  - intros j. rewrite <- (bd_G _ _ _ _ _ _ _ n k Rs OK deg). apply Hbd.
Qed.

Lemma empty_bases w rows radii : b_bars (im_of S n k deg) = [] -> b_bars (hom_of S n k deg) = [] -> first_page_local_lift S n deg w rows radii k = Ok None.
Proof.
  intros E1 E2. unfold first_page_local_lift. destruct (Nat.eqb (length radii) 0); [reflexivity|].
  rewrite (the_local_ok _ _ _ _ _ _ _ _ _ _ PO n k Hn Hk). fold (loc n k). cbn [bind].
  destruct (loc_ok _ _ _ _ _ _ _ _ _ S PO n k Hn Hk) as [Rs OK]. fold (loc n k) in OK. pose proof (lo_Ds _ _ _ _ _ _ _ _ OK) as LD. fold m in LD.
  destruct (bases_shape rnd p max_r _ _ Rs _ Hp (lo_valid _ _ _ _ _ _ _ _ OK) (lo_ph _ _ _ _ _ _ _ _ OK) deg ltac:(lia)) as (D1 & D2 & L1 & L2 & _).
  destruct (ph_lengths rnd p max_r _ _ Rs _ Hp (lo_valid _ _ _ _ _ _ _ _ OK) (lo_ph _ _ _ _ _ _ _ _ OK)) as (H1 & H2 & _).
  change (nth deg (ph_im (l_out (loc n k))) empty_basis) with (im_of S n k deg) in *. change (nth deg (ph_hom (l_out (loc n k))) empty_basis) with (hom_of S n k deg) in *.
  assert (E3 : im0 (loc n k) deg = Ok (im_of S n k deg)) by (unfold im0; rewrite (nth_err_nth _ deg empty_basis) by lia; reflexivity).
  assert (E4 : hom0 (loc n k) deg = Ok (hom_of S n k deg)) by (unfold hom0; rewrite (nth_err_nth _ deg empty_basis) by lia; reflexivity).
  rewrite E3, E4. cbn [bind]. rewrite E1 in L1. rewrite E2 in L2. cbn [length] in L1, L2. rewrite <- L1, <- L2. reflexivity.
Qed.
End One.

Variables (n deg : nat) (st : chains) (R : list Z).
Hypothesis Hn : (n < length nerve)%nat.
Hypothesis Hd : (deg < m)%nat.
Hypothesis Hg : good (widths n deg) st.
Hypothesis HR : forall k g, In g (le_ref (nth k st e0)) -> (g < length R)%nat.

(** A lifted chain is a cycle over each simplex of the nerve over which there are any. *)
Lemma lifted_cycle out k : first_page_lift S n deg st R = Ok out -> (k < length (lev n))%nat ->
  (b_bars (im_of S n k deg) = [] /\ b_bars (hom_of S n k deg) = []) \/
  forall g, (g < length R)%nat -> local_cycle p Dist IN S n deg k (nth g R 0) (value st k g).
Proof.
  intros E Hk. unfold first_page_lift in E. rewrite (spx_ok _ _ _ _ _ _ _ _ _ _ PO n) in E by lia. cbn [bind] in E. fold (lev n) in E.
  rewrite (page_dim_ok _ _ _ _ _ _ _ _ _ HI S PO n deg) in E by auto. cbn [bind] in E.
  destruct (Nat.eqb_spec (length R) 0) as [HR0|HR0]; [right; intros g Hg0; lia|].
  destruct (mapM _ (seq 0 (length (lev n)))) as [output|] eqn:EM; [|discriminate]. clear E.
  apply mapM_Ok in EM. destruct EM as [_ EM]. rewrite seq_length in EM. specialize (EM k 0%nat None Hk). rewrite seq_nth in EM by exact Hk. cbn [Nat.add] in EM.
  assert (Lw : length (widths n deg) = length (lev n)) by (unfold sizes; rewrite map_length, seq_length; reflexivity).
  assert (Ls : length st = length (lev n)) by (rewrite (good_length _ _ Hg); auto).
  rewrite (nth_err_nth st k e0) in EM by lia. cbn [bind] in EM.
  pose proof (good_nth _ _ k Hg ltac:(lia)) as He. rewrite sizes_nth in He by exact Hk.
  set (e := nth k st e0) in *. destruct He as [Hinc He].
  assert (Z0 : forall g, ~ In g (le_ref e) -> local_cycle p Dist IN S n deg k (nth g R 0) (value st k g)).
  { intros g Hno. apply (subs_zero p Hp); [apply (local_cycle_sub argsort Dist max_r max_dim p IN n0 nerve HI S)|]. intros j. unfold value. fold e. unfold at_entry. rewrite find_idx_notin by exact Hno. reflexivity. }
  destruct (Nat.ltb_spec 0 (length (le_ref e))) as [H0|H0].
  2:{ right. intros g _. apply Z0. destruct (le_ref e); [intros []|cbn in H0; lia]. }
  rewrite (take_err_pure R (le_ref e) 0) in EM by (intros g Hin; apply (HR k g Hin)). cbn [bind] in EM.
  destruct (le_coord e) as [|w rows] eqn:Ecoord; [discriminate|]. destruct He as (-> & Lrows & Frows).
  destruct (loc_ok _ _ _ _ _ _ _ _ _ S PO n k Hn Hk) as [Rs OK]. fold (loc n k) in OK.
  pose proof (lo_Ds _ _ _ _ _ _ _ _ OK) as LD. fold m in LD.
  pose proof (the_local_ok _ _ _ _ _ _ _ _ _ _ PO n k Hn Hk) as El. fold (loc n k) in El.
  rewrite <- (csize_G _ _ _ _ _ _ _ n k Rs OK deg) in Frows, EM.
  set (radii := map (fun i => nth i R 0) (le_ref e)) in *.
  assert (Hrad : forall i, (i < length (le_ref e))%nat -> nth i radii 0 = nth (nth i (le_ref e) 0%nat) R 0).
  { intros i Hi. unfold radii. rewrite (nth_map (fun i0 => nth i0 R 0) (le_ref e) i 0%nat) by auto. reflexivity. }
  assert (Hval : forall i j, (i < length (le_ref e))%nat -> value st k (nth i (le_ref e) 0%nat) j = vget (nth i rows []) j).
  { intros i j Hi. unfold value. fold e. unfold at_entry. rewrite Ecoord. cbn [lrows]. rewrite find_idx_nth by (auto; apply increasing_NoDup; auto). reflexivity. }
  pose proof (local_lift_sound rnd p max_r _ _ Rs _ Hp (lo_valid _ _ _ _ _ _ _ _ OK) (lo_ph _ _ _ _ _ _ _ _ OK) S n k deg (loc n k) ltac:(lia)
    (po_p _ _ _ _ _ _ _ _ _ _ PO) El eq_refl rows radii Frows ltac:(unfold radii; rewrite map_length; lia) _ EM) as HS.
  change (nth deg (ph_hom (l_out (loc n k))) empty_basis) with (hom_of S n k deg) in HS.
  change (nth deg (ph_im (l_out (loc n k))) empty_basis) with (im_of S n k deg) in HS.
  destruct (nth k output None) as [[gammas betas]|].
  2:{ destruct HS as [->|[E1 E2]]; [cbn [length] in Lrows; lia|left; auto]. }
  right. intros g _. destruct (in_dec Nat.eq_dec g (le_ref e)) as [Hin|Hno]; [|apply Z0; exact Hno].
  apply (In_nth _ _ 0%nat) in Hin. destruct Hin as (i & Hi & <-). destruct HS as (_ & _ & _ & _ & _ & _ & HS).
  destruct (HS i ltac:(lia)) as (T1 & T2 & T3). rewrite Hrad in T1, T2 by exact Hi.
  set (r := nth (nth i (le_ref e) 0%nat) R 0) in *.
  pose proof (local_cycle_sub argsort Dist max_r max_dim p IN n0 nerve HI S n deg k r) as Su.
  refine (subs_cong p Hp _ _ _ Su _ (sub_add p _ _ _ Su
    (subs_lc_cong p Hp _ (length (b_bars (im_of S n k deg))) (fun a => get gammas a i) (colv (b_coords (im_of S n k deg))) Su _)
    (subs_lc_cong p Hp _ (length (b_bars (hom_of S n k deg))) (fun h => get betas h i) (colv (b_coords (hom_of S n k deg))) Su _))).
  - intros j. rewrite (Hval i j Hi). rewrite (T3 j). reflexivity.
  - intros a Ha. destruct (Z.eq_dec (get gammas a i) 0) as [->|Hne]; [left; reflexivity|right]. apply im_cycle; auto. apply (T1 a Hne).
  - intros h Hh. destruct (Z.eq_dec (get betas h i) 0) as [->|Hne]; [left; reflexivity|right]. apply hom_cycle; auto. apply (T2 h Hne).
Qed.

(** Entries over simplices of the nerve without cycles are not looked at. *)
Lemma wipe_lift dead : (forall k, (k < length (lev n))%nat -> dead k = true -> b_bars (im_of S n k deg) = [] /\ b_bars (hom_of S n k deg) = []) ->
  first_page_lift S n deg (wipe dead st) R = first_page_lift S n deg st R.
Proof.
  intros Hdead. unfold first_page_lift. rewrite (spx_ok _ _ _ _ _ _ _ _ _ _ PO n) by lia. cbn [bind]. fold (lev n).
  rewrite (page_dim_ok _ _ _ _ _ _ _ _ _ HI S PO n deg) by auto. cbn [bind].
  destruct (Nat.eqb_spec (length R) 0) as [HR0|HR0]; [reflexivity|].
  assert (Lw : length (widths n deg) = length (lev n)) by (unfold sizes; rewrite map_length, seq_length; reflexivity).
  assert (Ls : length st = length (lev n)) by (rewrite (good_length _ _ Hg); auto).
  assert (Hnone : forall k, (k < length (lev n))%nat -> dead k = true ->
    (if Nat.ltb 0 (length (le_ref (nth k st e0))) then radii <- take_err R (le_ref (nth k st e0)) ;; match le_coord (nth k st e0) with LNil => Err ValueError | LMat w rows => first_page_local_lift S n deg w rows radii k end else Ok None) = Ok None).
  { intros k Hk Dk. pose proof (good_nth _ _ k Hg ltac:(lia)) as [_ He]. destruct (Nat.ltb_spec 0 (length (le_ref (nth k st e0)))) as [H0|H0]; [|reflexivity].
    rewrite (take_err_pure R (le_ref (nth k st e0)) 0) by (intros g Hin; apply (HR k g Hin)). cbn [bind].
    destruct (le_coord (nth k st e0)) as [|w rows]; [rewrite He in H0; cbn in H0; lia|]. destruct (Hdead k Hk Dk). apply empty_bases; auto. }
  rewrite (mapM_ext' _ (fun k => e <- nth_err st k ;; if Nat.ltb 0 (length (le_ref e)) then radii <- take_err R (le_ref e) ;; match le_coord e with LNil => Err ValueError | LMat w rows => first_page_local_lift S n deg w rows radii k end else Ok None)).
  2:{ intros k Hk. apply in_seq in Hk. rewrite (nth_err_nth (wipe dead st) k e0) by (rewrite wipe_length; lia). rewrite (nth_err_nth st k e0) by lia. cbn [bind]. rewrite wipe_nth.
      destruct (dead k) eqn:Dk; [|reflexivity]. rewrite Hnone by (auto; lia). reflexivity. }
  destruct (mapM _ (seq 0 (length (lev n)))) as [output|] eqn:EM; [|reflexivity]. cbn [bind].
  destruct (cycle_dims S n deg) as [cyc|]; [|reflexivity]. cbn [bind].
  apply mapM_Ok in EM. rewrite seq_length in EM. destruct EM as [Lo EM].
  rewrite (foldM_ext _ (fun (st0 : list vec * chains * nat) (kn : nat * nat) =>
        let '(betas, lifts, prev) := st0 in
        let zeros := repeat (vzero (length R)) (snd kn - prev) in
        o <- nth_err output (fst kn) ;;
        e <- nth_err st (fst kn) ;;
        match o with
        | Some (g, b) =>
            bs <- (if Nat.ltb 0 (nrows b) then
                     if Nat.eqb (nrows b) (snd kn - prev) then Ok (cols (scatter_rows (length R) (le_ref e) b)) else Err ValueError
                   else Ok zeros) ;;
            lifts' <- (if Nat.ltb 0 (nrows g) then
                         l <- the_local S n (fst kn) ;;
                         pre <- preim0 l (1 + deg) ;;
                         P <- matmul pre g ;;
                         add_entry lifts (fst kn) (le_ref e) (LMat (nrows P) (cols P))
                       else Ok lifts) ;;
            Ok (betas ++ bs, lifts', snd kn)
        | None => Ok (betas ++ zeros, lifts, snd kn)
        end)); [reflexivity|].
  intros [[bs lf] prev] [k nx] _. cbn [fst snd]. destruct (nth_err output k) as [o|] eqn:Eo; [|reflexivity]. cbn [bind].
  assert (Hk : (k < length (lev n))%nat) by (rewrite <- Lo; eapply nth_err_lt; eauto).
  rewrite (nth_err_nth (wipe dead st) k e0) by (rewrite wipe_length; lia). rewrite (nth_err_nth st k e0) by lia. cbn [bind]. rewrite wipe_nth.
  destruct (dead k) eqn:Dk; [|reflexivity].
  specialize (EM k 0%nat None Hk). rewrite seq_nth in EM by exact Hk. cbn [Nat.add] in EM. rewrite (nth_err_nth st k e0) in EM by lia. cbn [bind] in EM. rewrite Hnone in EM by auto.
  rewrite (nth_err_nth output k None) in Eo by lia. rewrite <- EM in Eo. injection Eo as <-. reflexivity.
Qed.
End Conv.
