(** * Lifting to a page: no failure when nothing is divided out *)
From Coq Require Import QArith.
From Verif Require Import Base ListX SortX Lin Gauss_model Gauss_arith Gauss_col Gauss_solve Gauss_bar Basis_model Basis_props PH_model PH_loop PH_lin PH_step PH_props Simp_model Spec_Simp Simp_lists Simp_diff Simp_props
  Spec_PH Spec_Rips Rips_bd Rips_chain Rips_props LC_model Spec_LC LC_props SS_model Spec_SS SS_inv SS_page SS_cech SS_glue SS_lift SS_zig SS_first SS_double SS_fplift
  IK_model IK_lin IK_abs IK_quot IK_mph MPH_props Spec_IK Spec_Bars Bars MPH_bars Bars_complex Spec_E2 Spec_Two Blocks SS_rows Cover_model HP_model HP_table HP_row HP_gens HP_second HP_zero HP_pages HP_perm HP_two Two_col Two_fam HP_conv
  HP_ext HP_diag IK_rng SS_rng HP_shape HP_higher HP_first HP_deg.
From Coq Require Import Sorted Permutation Znumtheory.
Local Open Scope Z_scope.

Local Notation e0 := (LEntry [] LNil).

Lemma rng_take_rows p A rows : 0 < p -> rng_mat p A -> rng_mat p (take_rows A rows).
Proof.
  intros Hp H k Hk i. unfold ncols, take_rows in Hk. cbn [cols] in Hk. rewrite map_length in Hk.
  unfold col, take_rows. cbn [cols]. rewrite (nth_map (fun c : vec => map (fun i => vget c i) rows) (cols A) k []) by auto.
  unfold vget at 1 3. destruct (Nat.lt_ge_cases i (length rows)) as [Hi|Hi].
  - rewrite (nth_map (fun i => vget (nth k (cols A) []) i) rows i 0%nat) by auto. apply (H k Hk).
  - rewrite nth_overflow by (rewrite map_length; auto). lia.
Qed.

(** One step of the loop, on a page with no image. *)
Lemma lift_one_total rnd P n deg pp kk H I prev Bt G bbar : prime pp ->
  tget (h_hom P) kk n deg = Ok H -> tget (h_im P) kk n deg = Ok (Some I) -> b_dim I = 0%nat ->
  ((0 < b_dim H)%nat -> b_dim H = length (b_bars H) /\ b_prev H = Some prev /\ ncols (b_coords H) = b_dim H /\ nrows (b_coords H) = nrows Bt /\
     (0 < length (b_bars prev) <= nrows Bt)%nat /\ (forall x, In x (b_bars prev) -> fst x < snd x) /\ rng_mat pp (b_coords H) /\
     ncols Bt = length bbar /\ rng_mat pp Bt /\
     forall g, (g < length bbar)%nat -> let R := fst (nth g bbar (0, 0)) in
       exists x, (forall k, ~ alive (b_bars H) k R -> x k = 0) /\
         forall i, alive (b_bars prev) i R -> cong pp (Zsum (b_dim H) (fun k => x k * get (b_coords H) i k)) (get Bt i g)) ->
  exists r, lift_loop rnd P n deg pp [kk] Bt G bbar = Ok r.
Proof.
  intros Hp EH EI HI0 HO. pose proof (prime_ge_2 _ Hp) as Hp2. cbn [lift_loop]. rewrite EI, EH. cbn [bind].
  destruct (Nat.ltb_spec 0 (b_dim H)) as [HH|HH]; [|eexists; reflexivity].
  destruct (HO HH) as (Ld & Hprev & Cc & Nr & Lp & Hbars & HrH & Nb & HrB & Hsol). clear HO. rewrite HI0, Hprev. cbn [Nat.ltb Nat.leb bind]. rewrite Nr, Nat.eqb_refl. cbn [bind].
  set (rb := b_bars prev) in *.
  assert (Emk : exists Q, mk_basis (b_flat prev) rb None no_coords false false None = Ok Q /\ b_flat Q = false).
  { unfold mk_basis. cbn [mk_coords mk_brk bind andb]. eexists. split; [reflexivity|]. cbn [b_flat]. 
    destruct (b_flat prev); [|reflexivity]. cbn [andb]. destruct (Nat.eqb_spec (length rb) 0); [lia|reflexivity]. }
  destruct Emk as (Q & Emk & Fq). rewrite Emk. cbn [bind].
  assert (Erb : b_bars Q = rb) by (pose proof (mk_basis_bars _ _ _ _ _ _ _ _ Emk) as [X _]; rewrite X; apply nontrivial_all; exact Hbars).
  unfold b_sort. rewrite Fq, Erb.
  assert (Eprev : match b_prev Q with Some _ => take_cols_err (b_coords Q) (sort_order rnd rb) | None => Ok (b_coords Q) end = Ok (b_coords Q)).
  { unfold mk_basis in Emk. cbn [andb] in Emk. destruct (mk_coords rb None no_coords); [|discriminate]. cbn [bind] in Emk. destruct (mk_brk _ _ _); [|discriminate]. cbn [bind] in Emk.
    injection Emk as <-. reflexivity. }
  rewrite Eprev. cbn [bind]. unfold take_rows_err.
  assert (NA : nrows (mappend (b_coords H) Bt) = nrows Bt) by (cbn [mappend nrows]; exact Nr).
  destruct (forallb _ (sort_order rnd rb)) eqn:Ef.
  2:{ exfalso. enough (forallb (fun i : nat => Nat.ltb i (nrows (mappend (b_coords H) Bt))) (sort_order rnd rb) = true) by congruence. apply forallb_forall. intros i Hi. apply sort_order_lt in Hi.
      apply Nat.ltb_lt. unfold vec in *. lia. }
  cbn [bind].
  assert (NcA : ncols (mappend (b_coords H) Bt) = (b_dim H + length bbar)%nat) by (rewrite ncols_mappend, Cc, Nb; reflexivity).
  set (A := mappend (b_coords H) Bt) in *.
  assert (NcA' : ncols (take_rows A (sort_order rnd rb)) = ncols A) by (unfold ncols, take_rows; cbn [cols]; rewrite map_length; reflexivity).
  destruct (gauss_barcodes_complete (take_rows A (sort_order rnd rb)) (take (0, 0) rb (sort_order rnd rb)) (b_bars H ++ bbar) (0 + b_dim H) pp Hp) as [X EX].
  - apply rng_take_rows; [lia|]. apply rng_mappend; auto.
  - rewrite NcA', NcA. lia.
  - rewrite NcA', NcA, app_length, <- Ld. lia.
  - intros j Hj b. rewrite NcA', NcA in Hj. cbn [plus] in Hj.
    assert (Eb : b = fst (nth (j - b_dim H) bbar (0, 0))) by (unfold b; rewrite app_nth2 by lia; rewrite Ld; reflexivity).
    destruct (Hsol (j - b_dim H)%nat ltac:(lia)) as (x & Hx1 & Hx2). rewrite <- Eb in Hx1, Hx2.
    exists (fun k => if Nat.ltb k (b_dim H) then x k else 0). split.
    + intros k Hk. destruct (Nat.ltb_spec k (b_dim H)) as [L|L]; [|reflexivity]. apply Hx1. intros [D1 D2]. apply Hk. split; [rewrite app_length; lia|]. rewrite app_nth1 by lia. exact D2.
    + intros i [Hi Ha]. unfold take in Hi, Ha. rewrite map_length in Hi. rewrite (nth_map (fun i => nth i rb (0, 0)) (sort_order rnd rb) i 0%nat) in Ha by auto.
      set (i' := nth i (sort_order rnd rb) 0%nat) in *.
      assert (Hi' : (i' < length rb)%nat) by (apply (sort_order_lt rnd rb), nth_In; exact Hi).
      rewrite take_rows_get by (try rewrite NcA; auto; lia). fold i'.
      unfold A at 2. rewrite <- (Nat.sub_add (b_dim H) j) by lia. rewrite (Nat.add_comm (j - b_dim H)). rewrite <- Cc at 2. rewrite get_app_r.
      replace (b_dim H + (j - b_dim H) - b_dim H)%nat with (j - b_dim H)%nat by lia.
      etransitivity; [|apply (Hx2 i' (conj Hi' Ha))]. apply cong_eq. cbn [plus]. apply Zsum_ext. intros k Hk. destruct (Nat.ltb_spec k (b_dim H)); [|lia].
      rewrite take_rows_get by (try rewrite NcA; auto; lia). fold i'. unfold A. rewrite get_app_l by (rewrite Cc; exact Hk). reflexivity.
  - rewrite EX. cbn [bind lift_loop]. eexists. reflexivity.
Qed.

Lemma lift_loop_app rnd P n deg pp k bbar : forall ks Bt G,
  (forall B' G', lift_loop rnd P n deg pp ks Bt G bbar = Ok (Some B', Some G') -> lift_loop rnd P n deg pp (ks ++ [k]) Bt G bbar = lift_loop rnd P n deg pp [k] B' (Some G') bbar) /\
  (lift_loop rnd P n deg pp ks Bt G bbar = Ok (None, None) -> lift_loop rnd P n deg pp (ks ++ [k]) Bt G bbar = Ok (None, None)).
Proof.
  induction ks as [|j ks IH]; intros Bt G.
  { cbn [lift_loop app]. destruct G as [G|]; split; try discriminate. intros B' G' E. injection E as <- <-. reflexivity. }
  cbn [app lift_loop]. destruct (tget (h_im P) j n deg) as [Im|]; [|split; discriminate]. cbn [bind]. destruct (tget (h_hom P) j n deg) as [Hom|]; [|split; discriminate]. cbn [bind].
  destruct (Nat.ltb 0 (b_dim Hom)); [|split; [discriminate|auto]].
  destruct Im as [Im|]; [|split; discriminate].
  destruct (if Nat.ltb 0 (b_dim Im) then _ else _) as [A1|]; [|split; discriminate]. cbn [bind].
  destruct (if Nat.eqb (nrows A1) (nrows Bt) then _ else _) as [A2|]; [|split; discriminate]. cbn [bind]. destruct (b_prev Hom) as [prev|]; [|split; discriminate].
  destruct (mk_basis _ _ _ _ _ _ _) as [Q|]; [|split; discriminate]. cbn [bind]. destruct (b_sort rnd Q) as [[Q' order]|]; [|split; discriminate]. cbn [bind].
  destruct (take_rows_err A2 order) as [A3|]; [|split; discriminate]. cbn [bind]. destruct (gauss_barcodes _ _ _ _ _) as [co|]; [|split; discriminate]. cbn [bind].
  apply IH.
Qed.

Section Lift.
Variables (argsort : list Z -> list nat) (rnd : Z -> Z) (Dist : list (list Z)) (max_r max_dim p : Z)
  (IN : list (list (list nat))) (n0 : nat) (nerve : list (list simplex)).
Hypothesis HI : mv_input argsort Dist max_r max_dim p IN n0 nerve.
Variable S : ss.
Hypothesis PO : page_ok argsort rnd Dist max_r max_dim p IN n0 nerve S.
Hypothesis HN : pure_nerve n0 nerve.
Hypothesis Hlen : (1 < length nerve)%nat.
Hypothesis Htop : forall n, (2 <= n)%nat -> level n0 nerve n = [].
Variable np : nat.
Hypothesis Hnp : (2 <= np)%nat.
Let m := Z.to_nat max_dim.
Let Hp := mv_prime _ _ _ _ _ _ _ _ HI.
Let lev n := level n0 nerve n.
Let p_pos : 0 < p. Proof. destruct Hp. lia. Qed.
Let iff0 a : a mod p = 0 <-> cong p a 0. Proof. apply mod_cong_0. exact p_pos. Qed.
Local Notation FB := (fam_bounds p Dist IN n0 nerve S).
Local Notation FZ := (fam_cycle p Dist IN n0 nerve S).
Local Notation PZ := (page2_cycle p Dist IN n0 nerve S).
Local Notation PB := (page2_bounds p Dist IN n0 nerve S).
Local Notation rb := (row_bars n0 nerve S).
Local Notation cmb := (fam_comb n0 nerve S).
Let FBs d n r : Spec_Bars.subspace p (FB d n r). Proof. exact (fam_bounds_sub argsort Dist max_r max_dim p IN n0 nerve HI S d n r). Qed.

(** Without classes in the next column the bounds of the second page are those of the first. *)
Lemma pb_fb d n r v : (d < m)%nat -> r < max_r -> rb d (Datatypes.S n) = [] -> PB d n r v -> FB d n r v.
Proof.
  intros Hd Hrr E (_ & w & Fw & Fb).
  assert (Bw : FB d (Datatypes.S n) r w).
  { destruct (fam_pb _ _ _ _ _ _ _ _ _ HI S PO d Hd (proj2 HN) (Datatypes.S n)) as (_ & HQ & _). destruct (HQ r Hrr) as (_ & HQ2 & _). destruct (HQ2 w Fw) as (c & _ & Hc). rewrite E in Hc.
    apply (sub_ext p _ _ _ (FBs d (Datatypes.S n) r)) with (2 := Hc). intros x. cbn. ring. }
  apply (fc_bounds _ _ _ _ _ _ _ _ _ HI S PO d Hd (proj2 HN)) in Bw.
  apply (sub_ext p _ (fun x => (v x - fam_cech IN n0 nerve S d n w x) + fam_cech IN n0 nerve S d n w x) _ (FBs d n r)); [intros x; ring|].
  apply (sub_add p _ _ _ (FBs d n r)); assumption.
Qed.

(** [lift_to_page] does not fail on cycles of the second page. *)
Definition lift_ok (P : pages) (n d tp : nat) : Prop :=
  forall B R, nrows B = length R -> ncols B = length (rb d n) -> wf_mat B -> (forall g h, 0 <= get B g h < p) ->
  (forall g, (g < length R)%nat -> (forall h, (h < length (rb d n))%nat -> nth g R 0 < bbirth (rb d n) h -> cong p (get B g h) 0) /\
     (nth g R 0 < max_r -> PZ d n (nth g R 0) (cmb d n (get B g)))) ->
  exists o gm, lift_to_page rnd S P n d tp B (map (fun t => (t, max_r)) R) = Ok (o, gm).

Let ER (R : list Z) : forall g, (g < length R)%nat -> fst (nth g (map (fun t => (t, max_r)) R) (0, 0)) = nth g R 0.
Proof. intros g Hg. rewrite (nth_map (fun t => (t, max_r)) R g 0) by exact Hg. reflexivity. Qed.

Lemma mtr_rng B : (forall g h, 0 <= get B g h < p) -> rng_mat p (mtr B).
Proof.
  intros H k Hk i. unfold rng_mat, mtr, col, ncols in *. cbn [cols] in *. rewrite map_length, seq_length in Hk. rewrite (nth_map _ (seq 0 (nrows B)) k 0%nat) by (rewrite seq_length; exact Hk). rewrite seq_nth by exact Hk.
  unfold vget. destruct (Nat.lt_ge_cases i (ncols B)) as [Hi|Hi].
  - rewrite (nth_map (fun c => nth (0 + k) c 0) (cols B) i []) by exact Hi. apply (H k i).
  - rewrite nth_overflow by (rewrite map_length; exact Hi). lia.
Qed.

Lemma lift_ok_first P n d H I reps : (d < m)%nat -> rb d (Datatypes.S n) = [] -> tget (h_hom P) 1 n d = Ok H -> tget (h_im P) 1 n d = Ok (Some I) -> redm p (b_coords H) ->
  gens Dist max_r p IN n0 nerve S d n H I reps -> lift_ok P n d 2.
Proof.
  intros Hd Erb EH EI HrH GE B R NB CB WB HB HR. pose proof (po_p _ _ _ _ _ _ _ _ _ _ PO) as Ep. unfold lift_to_page. change (seq 1 (2 - 1)) with [1%nat].
  destruct (mtr_dims B) as [D1 D2]. change (ncols (mtr B) = nrows B) in D2.
  assert (X : exists r, lift_loop rnd P n d (s_p S) [1%nat] (mtr B) None (map (fun t => (t, max_r)) R) = Ok r); [|destruct X as [[o gm] X]; eauto].
  rewrite Ep. apply (lift_one_total rnd P n d p 1 H I (row_base n0 nerve S d n)); auto; [apply (ge_im0 _ _ _ _ _ _ _ _ _ _ _ _ GE Erb)|].
  intros Hpos. destruct (ge_over _ _ _ _ _ _ _ _ _ _ _ _ GE Hpos) as ((_ & X1 & _) & X2 & _ & _ & X3 & X4 & _). cbn [row_base b_dim] in X3.
  assert (Hbr : forall x, In x (rb d n) -> fst x < snd x <= max_r) by (exact (proj1 (fam_pb _ _ _ _ _ _ _ _ _ HI S PO d Hd (proj2 HN) n))).
  assert (Hne : (0 < length (rb d n))%nat).
  { destruct (rb d n) eqn:E; [|cbn; lia]. pose proof (ge_wb _ _ _ _ _ _ _ _ _ _ _ _ GE) as PB1.
    pose proof (wb_bar p max_r _ _ _ _ PB1 0%nat ltac:(lia)) as Bar. destruct PB1 as (_ & HQ & _). destruct (HQ (bbirth (b_bars H) 0) ltac:(lia)) as (_ & _ & HQ3).
    assert (X : 1 mod p = 0); [|rewrite Z.mod_1_l in X by (apply prime_ge_2 in Hp; lia); discriminate].
    apply (HQ3 (fun k => if Nat.eqb k 0 then 1 else 0)) with (k := 0%nat); [| |lia].
    - intros [|k] Hk; [exfalso; apply Hk; lia|reflexivity].
    - apply (subs_zero p Hp); [apply (page2_bounds_sub _ _ _ _ _ _ _ _ HI S d n _ Hd)|]. intros x. apply cong_eq. apply Zsum_0. intros k Hk.
      replace (cmb d n _ x) with 0; [ring|]. unfold fam_comb. rewrite E. reflexivity. }
  split; [exact X1|]. split; [exact X2|]. split; [exact X4|]. split; [rewrite D1, CB; exact X3|]. cbn [row_base b_bars]. split; [rewrite D1, CB; lia|]. split; [intros x Hx; apply (Hbr x Hx)|].
  split; [apply redm_rng; [apply prime_ge_2; exact Hp|exact HrH]|]. split; [rewrite map_length, D2; exact NB|]. split; [apply mtr_rng; exact HB|].
  rewrite map_length. intros g Hg. rewrite (ER R g Hg). cbv zeta. destruct (HR g Hg) as [HR1 HR2]. set (r := nth g R 0) in *.
  assert (Gm : forall i, (i < length (rb d n))%nat -> get (mtr B) i g = get B g i) by (intros i Hi; rewrite get_mtr; [reflexivity|rewrite CB; exact Hi|rewrite NB; exact Hg]).
  destruct (Z_lt_ge_dec r max_r) as [Lr|Lr].
  2:{ exists (fun _ => 0). split; [reflexivity|]. intros i [Hi Ha]. exfalso. specialize (Hbr _ (nth_In _ (0, 0) Hi)). lia. }
  destruct (ge_wb _ _ _ _ _ _ _ _ _ _ _ _ GE) as (_ & HQ & _). destruct (HQ r Lr) as (_ & HQ2 & _). destruct (HQ2 _ (HR2 Lr)) as (c & Hc & Hb). clear HQ HQ2.
  assert (Hca : forall k, ~ alive (b_bars H) k r -> c k = 0).
  { intros k Hk. apply Hc. intros (Y1 & Y2). apply Hk. unfold bbirth, bdeath in *. destruct (Nat.lt_ge_cases k (length (b_bars H))) as [L|L]; [split; [exact L|lia]|]. rewrite nth_overflow in Y1, Y2 by exact L. cbn in Y1, Y2. lia. }
  exists c. split; [exact Hca|].
  apply (pb_fb d n r _ Hd Lr Erb) in Hb.
  pose proof (ge_dim _ _ _ _ _ _ _ _ _ _ _ _ GE) as Ld.
  assert (Fb : FB d n r (cmb d n (fun i => get B g i - Zsum (b_dim H) (fun k => c k * get (b_coords H) i k)))).
  { apply (sub_ext p _ _ _ (FBs d n r)) with (2 := Hb). intros x. rewrite cmb_sub. f_equal. rewrite cmb_lin. rewrite Ld. reflexivity. }
  assert (Key : forall h, (h < length (rb d n))%nat -> r < bdeath (rb d n) h -> cong p (get B g h - Zsum (b_dim H) (fun k => c k * get (b_coords H) h k)) 0).
  { apply (free_bounds argsort rnd Dist max_r max_dim p IN n0 nerve HI S PO HN Hlen np Hnp d n r _ Hd Lr); [|exact Fb].
    intros h Hh Hb'. transitivity (0 - 0); [|reflexivity]. apply cong_sub; [apply HR1; auto|]. apply Zsum_cong0. intros k Hk.
    destruct (classic_alive (b_bars H) k r) as [[A1 A2]|A]; [|rewrite (Hca k A); reflexivity].
    destruct (Z.eq_dec (get (b_coords H) h k mod p) 0) as [E|E]; [apply iff0 in E; rewrite E; apply cong_eq; ring|].
    pose proof (ge_sup _ _ _ _ _ _ _ _ _ _ _ _ GE k h Hk Hh E). unfold bbirth in Hb'. lia. }
  intros i [Hi Ha]. rewrite Gm by exact Hi. specialize (Key i Hi ltac:(unfold bdeath; lia)). symmetry.
  transitivity (get B g i - Zsum (b_dim H) (fun k => c k * get (b_coords H) i k) + Zsum (b_dim H) (fun k => c k * get (b_coords H) i k)); [apply cong_eq; ring|].
  rewrite Key. apply cong_eq. ring.
Qed.

Lemma lift_ok_step P n d k V I : (d < m)%nat -> (2 <= k)%nat -> plev rnd Dist max_r p IN n0 nerve S P n d (k - 1) V I -> stp rnd P k n d -> lift_ok P n d k -> lift_ok P n d (Datatypes.S k).
Proof.
  intros Hd Hk (H & J & reps & EH & EJ & ED & ERp & EB & EDim & GE & LI) (H2 & H' & I' & R' & F1 & F2 & F3 & F4 & F5 & F6 & F7 & F8) LO B R NB CB WB HB HR.
  rewrite EH in F1. injection F1 as <-. pose proof (ge_dim _ _ _ _ _ _ _ _ _ _ _ _ GE) as Ld. pose proof (po_p _ _ _ _ _ _ _ _ _ _ PO) as Ep.
  replace (Datatypes.S (k - 1)) with k in LI by lia.
  destruct (LO B R NB CB WB HB HR) as (o & gm & EL). pose proof (LI B R o gm NB CB WB EL) as PL. unfold lift_to_page in EL |- *.
  assert (Sq : seq 1 (Datatypes.S k - 1) = seq 1 (k - 1) ++ [k]) by (replace (Datatypes.S k - 1)%nat with (Datatypes.S (k - 1)) by lia; rewrite seq_S; do 2 f_equal; lia).
  rewrite Sq. destruct (lift_loop_app rnd P n d (s_p S) k (map (fun t => (t, max_r)) R) (seq 1 (k - 1)) (mtr B) None) as [LA1 LA2].
  destruct PL as [(Z0 & -> & ->)|(Hpos & X & G & Y & -> & -> & X3 & X4 & X5 & X6 & X7)]; [do 2 eexists; apply LA2; exact EL|].
  rewrite (LA1 _ _ EL). destruct (F8 ltac:(lia)) as [EV _].
  set (N := b_dim V) in *. set (o := sort_order rnd (b_bars H)) in *.
  assert (HP : Permutation (seq 0 N) o) by (rewrite Ld, <- EB; apply sort_order_perm).
  assert (Lo : length o = N) by (rewrite <- (Permutation_length HP); apply seq_length). destruct (perm_inverse N o HP) as (q & Q1 & Q2).
  assert (Eco : b_coords H' = take_cols (mident N) o) by (rewrite EV; unfold vsort; cbn [b_coords]; rewrite EDim; reflexivity).
  assert (EB' : b_bars H' = take (0, 0) (b_bars V) o) by (rewrite EV; unfold vsort; cbn [b_bars]; rewrite <- EB; reflexivity).
  assert (ED' : b_dim H' = N) by (rewrite EV; exact EDim).
  assert (Nt : forall t, (t < N)%nat -> nth t (take (0, 0) (b_bars V) o) (0, 0) = nth (nth t o 0%nat) (b_bars V) (0, 0)).
  { intros t Ht. unfold take. rewrite (nth_map (fun i => nth i (b_bars V) (0, 0)) o t 0%nat) by lia. reflexivity. }
  assert (Lt : length (take (0, 0) (b_bars V) o) = N) by (unfold take; rewrite map_length; exact Lo).
  assert (Z : exists r, lift_loop rnd P n d (s_p S) [k] X (Some G) (map (fun t => (t, max_r)) R) = Ok r); [|destruct Z as [[oo gg] Z]; eauto].
  rewrite Ep. apply (lift_one_total rnd P n d p k H' I' H); auto. intros _. rewrite ED'.
  split; [rewrite EB', Lt; reflexivity|]. split; [rewrite EV; reflexivity|]. split; [rewrite Eco; unfold ncols, take_cols; cbn [cols]; rewrite map_length; exact Lo|].
  split; [rewrite Eco, X3; reflexivity|]. split; [rewrite EB, <- Ld, X3; lia|].
  split; [rewrite EB; intros x Hx; pose proof (proj1 (ge_wb _ _ _ _ _ _ _ _ _ _ _ _ GE) x Hx); lia|].
  split; [rewrite Eco; pose proof (prime_ge_2 _ Hp); apply redm_rng; [assumption|]; eapply redm_tcols; try eassumption; apply redm_ident; assumption|].
  split; [rewrite map_length; exact X4|].
  split; [intros g Hg i; rewrite X4 in Hg; apply (X7 g Hg)|].
  rewrite map_length. intros g Hg. rewrite (ER R g Hg). cbv zeta. destruct (X7 g Hg) as (B1 & B2 & _). set (r := nth g R 0) in *.
  exists (fun t => if Nat.ltb t N then get X (nth t o 0%nat) g else 0). split.
  - intros t Ht. destruct (Nat.ltb_spec t N) as [L|L]; [|reflexivity]. destruct (Z.eq_dec (get X (nth t o 0%nat) g) 0) as [E|E]; [exact E|]. exfalso. apply Ht.
    destruct (Q1 t L) as [Q1t _]. destruct (B2 _ Q1t E) as [_ A]. rewrite EB'. split; [rewrite Lt; exact L|]. rewrite Nt by exact L. exact A.
  - intros i [Hi _]. rewrite EB, <- Ld in Hi. fold N in Hi. destruct (Q2 i Hi) as [Hq Eq]. apply cong_eq. rewrite (Zsum_single N (q i)).
    + destruct (Nat.ltb_spec (q i) N) as [_|L]; [|lia]. rewrite Eco. unfold get at 2. rewrite nth_take_cols by lia. change (vget (col (mident N) ?a) ?b) with (get (mident N) b a). rewrite Eq, mident_get by exact Hi. unfold funit. rewrite Nat.eqb_refl. ring.
    + exact Hq.
    + intros t Ht Hne. rewrite Eco. unfold get at 2. rewrite nth_take_cols by lia. change (vget (col (mident N) ?a) ?b) with (get (mident N) b a). destruct (Q1 t Ht) as [Q1t Q1e]. rewrite mident_get by exact Q1t.
      unfold funit. destruct (Nat.eqb_spec i (nth t o 0%nat)) as [E|E]; [exfalso; apply Hne; rewrite E; symmetry; exact Q1e|]. destruct (Nat.eqb_spec (nth t o 0%nat) i) as [E'|E']; [congruence|]. ring.
Qed.
End Lift.
