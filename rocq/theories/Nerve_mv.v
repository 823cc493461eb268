(** * Covers with acyclic intersections: the second page of [mv_ss] and of [create_MV_ss] *)
From Coq Require Import QArith.
From Verif Require Import Base Lin Gauss_arith Basis_model PH_model PH_lin Simp_model Spec_Simp Spec_PH Spec_Rips Spec_Bars Spec_MV SS_model Spec_SS SS_inv SS_page SS_e2 Spec_E2 Cover_model Spec_Cover Cover_geom Spec_Call HP_model
  HP_e2 MPH_bars HP_ext Bars Bars_complex Rips_bars Spec_Cech MV_cover Simp_props MV_props MV_zero MV_two Spec_Nerve Nerve_e2.
From Coq Require Import Znumtheory Qabs Lqa.
Local Open Scope Z_scope.

(** A filtered quotient without classes. *)
Lemma barcode_quiet {X} p (p1 : 1 < p) (Zs Bs : Z -> (X -> Z) -> Prop) M bars : (forall r v, r < M -> Zs r v -> Bs r v) -> (forall r v w, (forall x, v x = w x) -> Bs r v -> Bs r w) ->
  barcode p Zs Bs M bars -> bars = [].
Proof.
  intros HZ HB [H1 H2]. destruct bars as [|b bars]; auto. exfalso. specialize (H1 b (or_introl eq_refl)). destruct (H2 (fst b) (fst b) ltac:(lia)) as (g & G1 & _ & G3).
  assert (Hpos : (0 < count_bars (spans (fst b) (fst b)) (b :: bars))%nat).
  { unfold count_bars. cbn [filter]. replace (spans (fst b) (fst b) b) with true; [cbn; lia|]. symmetry. unfold spans. apply andb_true_iff. rewrite Z.leb_le, Z.ltb_lt. lia. }
  assert (X0 : (if Nat.eqb 0 0 then 1 else 0) mod p = 0).
  { apply (G3 (fun k => if Nat.eqb k 0 then 1 else 0) ltac:(tauto)); [|exact Hpos]. apply (HB _ (g 0%nat)).
    - intros x. rewrite (Zsum_single _ 0%nat); [|exact Hpos|]; [rewrite Nat.eqb_refl; ring|]. intros i Hi Hne. apply Nat.eqb_neq in Hne. rewrite Hne. ring.
    - apply HZ; [lia|]. apply G1; [exact Hpos|exact Logic.I]. }
  cbn in X0. rewrite Z.mod_small in X0; lia.
Qed.

Lemma barcode_null {X} p (Zs Bs : Z -> (X -> Z) -> Prop) M : (forall r s v, r <= s < M -> Zs r v -> Bs s v) -> (forall r v w, (forall x, v x = w x) -> Bs r v -> Bs r w) -> barcode p Zs Bs M [].
Proof.
  intros HZ HB. split; [intros x []|]. intros r s Hrs. exists (fun _ _ => 0). change (count_bars (spans r s) []) with 0%nat. split; [intros; lia|]. split; [|intros; lia].
  intros v Hv. exists (fun _ => 0). split; [reflexivity|]. apply (HB s v); [intros x; cbn [Zsum]; ring|]. apply (HZ r s); auto.
Qed.

Section Page.
Variables (argsort : list Z -> list nat) (Dist : list (list Z)) (max_r max_dim p : Z) (IN : list (list (list nat))) (n0 : nat) (nerve : list (list (list nat))).
Hypothesis HI : mv_input argsort Dist max_r max_dim p IN n0 nerve.
Hypothesis HA : acyclic_cover p Dist max_r max_dim IN n0 nerve.
Let Hp := mv_prime _ _ _ _ _ _ _ _ HI.
Let p1 : 1 < p. Proof. destruct Hp. lia. Qed.

Lemma cech_bounds_cong d n r v w : (forall x, cong p (v x) (w x)) -> cech_bounds p Dist IN n0 nerve d n r v -> cech_bounds p Dist IN n0 nerve d n r w.
Proof.
  intros H [H1 H2]. split.
  - intros k s Hk. apply (mod_cong_0 p _ ltac:(lia)). rewrite <- (H (k, s)). apply (mod_cong_0 p _ ltac:(lia)). auto.
  - intros k Hk. refine (subs_cong p Hp _ _ _ (s_bounds_sub p _ p1 _ _) _ (H2 k Hk)). intros s. apply H.
Qed.

Lemma cech_cycle_cong d n r v w : (forall x, cong p (v x) (w x)) -> cech_cycle p Dist IN n0 nerve d n r v -> cech_cycle p Dist IN n0 nerve d n r w.
Proof.
  intros H [H1 H2]. split.
  - intros k s Hk. apply (mod_cong_0 p _ ltac:(lia)). rewrite <- (H (k, s)). apply (mod_cong_0 p _ ltac:(lia)). auto.
  - intros k Hk. refine (subs_cong p Hp _ _ _ (s_cycle_sub p _ p1 _ _) _ (H2 k Hk)). intros s. apply H.
Qed.

Lemma e2_bounds_ext d n r v w : (forall x, v x = w x) -> e2_bounds p Dist IN n0 nerve d n r v -> e2_bounds p Dist IN n0 nerve d n r w.
Proof.
  intros H (H1 & z & H2 & H3). split; [apply (cech_cycle_cong _ _ _ v); [intros x; rewrite (H x); reflexivity|exact H1]|]. exists z. split; [exact H2|].
  apply (cech_bounds_cong _ _ _ (fun x => v x - cech n0 nerve n z x)); [intros x; rewrite (H x); reflexivity|exact H3].
Qed.

Lemma zero_cech d n r : cech_cycle p Dist IN n0 nerve d n r (fun _ => 0).
Proof. split; [intros; apply Zmod_0_l|]. intros k Hk. apply (subs_zero p Hp _ _ (s_cycle_sub p _ p1 _ _)). intros i. reflexivity. Qed.

Lemma bounds_e2 d n r v : cech_cycle p Dist IN n0 nerve d n r v -> cech_bounds p Dist IN n0 nerve d n r v -> e2_bounds p Dist IN n0 nerve d n r v.
Proof.
  intros H1 H2. split; [exact H1|]. exists (fun _ => 0). split; [apply zero_cech|]. apply (cech_bounds_cong _ _ _ v); [|exact H2]. intros x. apply cong_eq. unfold cech.
  destruct (Nat.ltb _ _); [rewrite Zsum_0; [ring|]; intros; ring|ring].
Qed.

(** No classes in positive degrees. *)
Lemma acyclic_row d n bars : (1 <= d < Z.to_nat max_dim)%nat -> barcode p (e2_cycle p Dist IN n0 nerve d n) (e2_bounds p Dist IN n0 nerve d n) max_r bars -> bars = [].
Proof.
  intros Hd. apply barcode_quiet; [exact p1| |].
  - intros r v Hr [Hv _]. apply bounds_e2; [exact Hv|]. split; [apply Hv|]. intros k Hk. apply (HA n k d r); auto. apply (proj2 Hv). exact Hk.
  - intros r v w. apply e2_bounds_ext.
Qed.

(** Degrees which the nerve does not reach. *)
Lemma empty_e2 d n : level n0 nerve n = [] -> barcode p (e2_cycle p Dist IN n0 nerve d n) (e2_bounds p Dist IN n0 nerve d n) max_r [].
Proof.
  intros HL. assert (Any : forall v (P : nat -> (list nat -> Z) -> Prop), (forall x, v x mod p = 0) -> family p n0 nerve n P v).
  { intros v P Hv. split; [intros; apply Hv|]. intros k Hk. rewrite HL in Hk. cbn in Hk. lia. }
  apply barcode_null; [|intros r v w; apply e2_bounds_ext]. intros r s v _ [Hv _].
  assert (Hz : forall x, v x mod p = 0) by (intros [k t]; apply (proj1 Hv); rewrite HL; cbn; lia). apply bounds_e2; apply Any; exact Hz.
Qed.
End Page.

Lemma level_beyond n0 nerve n : pure_nerve n0 nerve -> (length nerve <= n)%nat -> level n0 nerve n = [].
Proof.
  intros [_ H] Hn. destruct (Nat.eq_dec n (length nerve)) as [->|Hne]; [exact H|]. destruct n as [|n]; [lia|]. unfold level. apply nth_overflow. lia.
Qed.

(** ** [mv_ss] *)
Theorem mv_nerve_page : forall argsort rnd Dist max_r max_dim p IN n0 nerve S P Hs, mv_input argsort Dist max_r max_dim p IN n0 nerve -> pure_nerve n0 nerve ->
  (forall x y, filtration_value Dist max_r x -> filtration_value Dist max_r y -> rnd x <= rnd y -> x <= y) ->
  full_nerve IN n0 nerve -> acyclic_cover p Dist max_r max_dim IN n0 nerve -> (forall d, (d <= Z.to_nat max_dim)%nat -> fine Dist max_r IN n0 d) ->
  mv_ss argsort rnd Dist max_r max_dim p IN n0 nerve = Ok (S, P, Hs) ->
  (forall n d, (n < length nerve)%nat -> (d < Z.to_nat max_dim)%nat -> exists H, tget (h_hom P) 1 n d = Ok H /\
     ((0 < d)%nat -> b_bars H = []) /\ ((d = 0)%nat -> (0 < n < Z.to_nat max_dim)%nat -> rips_barcode p Dist max_r n (b_bars H))) /\
  forall n, (0 < n)%nat -> (length nerve <= n < Z.to_nat max_dim)%nat -> rips_barcode p Dist max_r n [].
Proof.
  intros argsort rnd Dist max_r max_dim p IN n0 nerve S P Hs HI HN Hr HF HA Hfine E. split.
  - intros n d Hn Hd. destruct (mv_second_page _ _ _ _ _ _ _ _ _ _ _ _ HI HN Hr E n d Hn Hd) as (H & EH & HB). exists H. split; [exact EH|]. split.
    + intros Hpos. apply (acyclic_row _ _ _ _ _ _ _ _ HI HA d n); [lia|exact HB].
    + intros -> Hn'. apply (acyclic_e2 argsort Dist max_r max_dim p IN n0 nerve n); auto.
  - intros n Hpos Hn. apply (acyclic_e2 argsort Dist max_r max_dim p IN n0 nerve n); auto; [lia|]. apply (empty_e2 _ _ _ _ _ _ _ _ HI). apply level_beyond; [exact HN|lia].
Qed.

(** ** [create_MV_ss] *)
Lemma wide_full max_div overlap dim pc : 1 <= max_div -> rectangular dim pc -> wide max_div overlap dim pc ->
  forall pts IN n0 nerve, generate_cover (fun x => x) max_div overlap dim pc = Ok (pts, IN, (n0, nerve)) -> full_nerve IN n0 nerve.
Proof.
  intros H1 H2 H3 pts IN n0 nerve EG n t q Hl Hi Hv. apply (C51_aux max_div overlap dim pc H1 H2 H3 pts IN n0 nerve EG n t q); auto; intros v Hin; apply Hv; exact Hin.
Qed.

Lemma create_nerve_input argsort rnd dim pc Dist max_r max_dim max_div overlap p : cloud_call argsort rnd dim pc Dist max_r max_dim max_div p ->
  (0 < dim)%nat -> thick dim pc -> (0 <= overlap)%Q -> wide max_div overlap dim pc ->
  (forall u v e, (u < v < length pc)%nat -> dist Dist u v < max_r -> (e < dim)%nat -> (Qabs (nth e (nth u pc []) 0 - nth e (nth v pc []) 0) <= overlap)%Q) ->
  forall pts IN n0 nerve, generate_cover (fun x => x) max_div overlap dim pc = Ok (pts, IN, (n0, nerve)) ->
  mv_input argsort Dist max_r max_dim p IN n0 nerve /\ pure_nerve n0 nerve /\ full_nerve IN n0 nerve /\ forall d, fine Dist max_r IN n0 d.
Proof.
  intros HC H2 Ht Ho Hw Hn pts IN n0 nerve EG. assert (Hdiv : 1 <= max_div) by (destruct HC; lia).
  destruct (create_input _ _ _ _ _ _ _ _ _ _ HC _ _ _ _ EG) as [HI HN]. split; [exact HI|]. split; [exact HN|]. pose proof (cc_rect _ _ _ _ _ _ _ _ _ HC) as Hrect. split.
  - apply (wide_full max_div overlap dim pc Hdiv Hrect Hw pts). exact EG.
  - intros d. destruct HC. apply (cover_fine max_div overlap dim pc pts IN n0 nerve); auto.
Qed.

Theorem create_nerve_page : forall argsort rnd dim pc Dist max_r max_dim max_div overlap p S P Hs, cloud_call argsort rnd dim pc Dist max_r max_dim max_div p ->
  (0 < dim)%nat -> thick dim pc -> (0 <= overlap)%Q -> wide max_div overlap dim pc ->
  (forall u v e, (u < v < length pc)%nat -> dist Dist u v < max_r -> (e < dim)%nat -> (Qabs (nth e (nth u pc []) 0 - nth e (nth v pc []) 0) <= overlap)%Q) ->
  (forall pts IN n0 nerve, generate_cover (fun x => x) max_div overlap dim pc = Ok (pts, IN, (n0, nerve)) -> acyclic_cover p Dist max_r max_dim IN n0 nerve) ->
  create_MV_ss argsort rnd (fun x => x) dim pc Dist max_r max_dim max_div overlap p = Ok (S, P, Hs) ->
  (forall n d, (n < 2 ^ dim)%nat -> (d < Z.to_nat max_dim)%nat -> exists H, tget (h_hom P) 1 n d = Ok H /\
     ((0 < d)%nat -> b_bars H = []) /\ ((d = 0)%nat -> (0 < n < Z.to_nat max_dim)%nat -> rips_barcode p Dist max_r n (b_bars H))) /\
  forall n, (0 < n)%nat -> (2 ^ dim <= n < Z.to_nat max_dim)%nat -> rips_barcode p Dist max_r n [].
Proof.
  intros argsort rnd dim pc Dist max_r max_dim max_div overlap p S P Hs HC Hdim Ht Ho Hw Hn HA E. unfold create_MV_ss in E.
  destruct (generate_cover _ _ _ _ _) as [[[pts IN] [n0 nerve]]|] eqn:EG; [|discriminate]. cbn [bind] in E.
  destruct (create_nerve_input _ _ _ _ _ _ _ _ _ _ HC Hdim Ht Ho Hw Hn _ _ _ _ EG) as (HI & HN & HF & Hfine).
  assert (Hdiv : 1 <= max_div) by (destruct HC; lia).
  destruct (cover_inv _ _ _ _ _ _ _ _ Hdiv (cc_rect _ _ _ _ _ _ _ _ _ HC) (cc_spread _ _ _ _ _ _ _ _ _ HC) EG) as (mins & side & div & D).
  rewrite <- (cd_lenC _ _ _ _ _ _ _ _ _ _ _ D). apply (mv_nerve_page argsort rnd Dist max_r max_dim p IN n0 nerve S P Hs); auto.
  - apply (cc_rnd _ _ _ _ _ _ _ _ _ HC).
  - apply (HA pts). reflexivity.
Qed.

(** Clouds of integer points with squared distances. *)
Lemma integer_conditions dim pc max_r max_dim max_div overlap p : mv_call dim pc max_r max_dim max_div overlap p -> thick dim (map (map inject_Z) pc) ->
  cloud_call stable_argsort (fun x => x) dim (map (map inject_Z) pc) (sq_dists dim pc) max_r max_dim max_div p /\ (0 < dim)%nat /\ (0 <= overlap)%Q /\
  (forall u v e, (u < v < length (map (map inject_Z) pc))%nat -> dist (sq_dists dim pc) u v < max_r -> (e < dim)%nat ->
     (Qabs (nth e (nth u (map (map inject_Z) pc) []) 0 - nth e (nth v (map (map inject_Z) pc) []) 0) <= overlap)%Q).
Proof.
  intros HM Ht. pose proof HM as []. assert (Hsp : Spec_Cover.spread dim (map (map inject_Z) pc)) by (destruct (Ht 0%nat call_dim) as (a & b & Ha & Hb & H); exists 0%nat, a, b; auto).
  destruct call_overlap as [Ho1 Ho2]. split; [apply (mv_call_cloud _ _ _ _ _ overlap); auto|]. split; [exact call_dim|]. split; [lra|].
  intros u v f Huv Hdist He. rewrite map_length in Huv. rewrite sq_dists_nth in Hdist by lia.
  assert (X : forall k, nth k (map (map inject_Z) pc) [] = map inject_Z (nth k pc [])) by (intros k; change (@nil Q) with (map inject_Z []); apply map_nth).
  rewrite !X, !nth_inject, inject_minus. apply (sq_below _ max_r); auto. pose proof (sq_dist_coord dim (nth v pc []) (nth u pc []) f He). lia.
Qed.

(** ** A check of acyclicity: no bars in positive degrees over any simplex of the nerve *)
Definition calm_page (m : nat) (T : ss) : bool :=
  forallb (fun c => forallb (fun l => forallb (fun d => match b_bars (nth d (ph_hom (l_out l)) empty_basis) with [] => true | _ => false end) (seq 1 (m - 1))) (c_loc c)) (s_cols T).

Lemma calm_page_ok argsort rnd Dist max_r max_dim p IN n0 nerve S : mv_input argsort Dist max_r max_dim p IN n0 nerve -> pure_nerve n0 nerve ->
  zero_page argsort rnd Dist max_r max_dim p IN n0 nerve = Ok S -> calm_page (Z.to_nat max_dim) S = true -> acyclic_cover p Dist max_r max_dim IN n0 nerve.
Proof.
  intros HI HN EZ Hq n k d r c Hk Hd Hr Hc. pose proof (zero_page_ok _ _ _ _ _ _ _ _ _ HI S EZ) as PO. unfold calm_page in Hq.
  assert (L1 : (n < length nerve)%nat).
  { destruct (Nat.lt_ge_cases n (length nerve)) as [H|H]; [exact H|]. rewrite (level_beyond n0 nerve n HN H) in Hk. cbn in Hk. lia. }
  assert (EB : b_bars (hom_of S n k d) = []).
  { unfold hom_of, loc_of. rewrite forallb_forall in Hq. destruct (Nat.lt_ge_cases n (length (s_cols S))) as [Hn|Hn].
    2:{ rewrite (nth_overflow _ _ Hn). cbn. destruct k; cbn; destruct d; reflexivity. }
    specialize (Hq _ (nth_In _ no_column Hn)). destruct (Nat.lt_ge_cases k (length (c_loc (nth n (s_cols S) no_column)))) as [Hlt|Hge].
    - rewrite forallb_forall in Hq. specialize (Hq _ (nth_In _ no_local Hlt)). rewrite forallb_forall in Hq. specialize (Hq d ltac:(apply in_seq; lia)). destruct (b_bars _); [reflexivity|discriminate].
    - rewrite (nth_overflow _ _ Hge). cbn. destruct d; reflexivity. }
  assert (PP : forall s, cong p (on_simplices (simplices IN S n k d) (pull IN S n k d c) s) (c s)).
  { intros s. apply (push_pull _ _ _ _ _ _ _ _ _ HI S PO n k L1 Hk d r c s Hr); [lia|apply Hc]. }
  pose proof (mv_prime _ _ _ _ _ _ _ _ HI) as Hpr. assert (p2 : 1 < p) by (destruct Hpr; lia).
  assert (LC : local_cycle p Dist IN S n d k r (pull IN S n k d c)).
  { apply (cycle_back _ _ _ _ _ _ _ _ _ HI S PO n k L1 Hk d r); [lia|apply pull_chain; apply Hc|].
    refine (subs_cong p Hpr _ _ _ (s_cycle_sub p _ p2 _ _) _ Hc). intros s. symmetry. apply PP. }
  pose proof (no_class _ _ _ _ _ _ _ _ _ HI S PO n d k r _ L1 Hk ltac:(lia) Hr EB LC) as LB.
  apply (push_bounds _ _ _ _ _ _ _ _ _ HI S PO n k L1 Hk d r _ ltac:(lia)) in LB.
  refine (subs_cong p Hpr _ _ _ (s_bounds_sub p _ p2 _ _) _ LB). exact PP.
Qed.

Definition calmb (m : nat) (r : res (ss * pages * list basis)) : bool := match r with Ok (T, _, _) => calm_page m T | Err _ => false end.

Lemma calm_ok dim pc max_r max_dim max_div overlap p : cloud_call stable_argsort (fun x => x) dim (map (map inject_Z) pc) (sq_dists dim pc) max_r max_dim max_div p ->
  calmb (Z.to_nat max_dim) (run dim pc max_r max_dim max_div overlap p) = true ->
  forall pts IN n0 nerve, generate_cover (fun x => x) max_div overlap dim (map (map inject_Z) pc) = Ok (pts, IN, (n0, nerve)) -> acyclic_cover p (sq_dists dim pc) max_r max_dim IN n0 nerve.
Proof.
  intros HC Hq pts IN n0 nerve EG. set (Q := map (map inject_Z) pc) in *. unfold run, create_MV_ss in Hq. fold Q in Hq. rewrite EG in Hq. cbn [bind] in Hq.
  destruct (create_input _ _ _ _ _ _ _ _ _ _ HC _ _ _ _ EG) as [HI HN].
  destruct (mv_ss _ _ _ _ _ _ _ _ _) as [[[S P] Hs]|] eqn:EM; [|discriminate]. cbn [calmb] in Hq.
  unfold mv_ss in EM. destruct (zero_page _ _ _ _ _ _ _ _ _) as [S'|] eqn:EZ; [|discriminate]. cbn [bind] in EM.
  assert (ES : S' = S).
  { repeat (match type of EM with context [bind ?x _] => destruct x; cbn [bind] in EM; [|discriminate] end). injection EM as -> _ _. reflexivity. }
  subst S'. exact (calm_page_ok _ _ _ _ _ _ _ _ _ _ HI HN EZ Hq).
Qed.
