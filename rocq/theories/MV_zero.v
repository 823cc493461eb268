(** * The degree 0 of [create_MV_ss] *)
From Coq Require Import QArith.
From Verif Require Import Base Basis_model PH_model Simp_model Spec_Simp Spec_Rips Spec_Bars Spec_MV SS_model Spec_SS SS_inv Spec_E2 Cover_model Spec_Cover Cover_geom Spec_Call HP_model
  HP_second HP_zero Spec_Cech HP_e2 MV_cover Simp_props MV_props.
From Coq Require Import Znumtheory Qabs Lqa.
Local Open Scope Z_scope.

Section Create.
Variables (argsort : list Z -> list nat) (rnd : Z -> Z) (dim : nat) (pc : list point) (Dist : list (list Z)) (max_r max_dim max_div : Z) (overlap : Q) (p : Z).
Hypothesis HC : cloud_call argsort rnd dim pc Dist max_r max_dim max_div p.

Lemma create_input IN n0 nerve pts : generate_cover (fun x => x) max_div overlap dim pc = Ok (pts, IN, (n0, nerve)) ->
  mv_input argsort Dist max_r max_dim p IN n0 nerve /\ pure_nerve n0 nerve.
Proof.
  intros E. destruct HC. split; [|apply (cover_pure max_div overlap dim pc pts IN n0 nerve); auto; lia].
  constructor; auto. rewrite cc_length. apply (cover_covering max_div overlap dim pc pts IN n0 nerve); auto. lia.
Qed.

Theorem create_second S P Hs : create_MV_ss argsort rnd (fun x => x) dim pc Dist max_r max_dim max_div overlap p = Ok (S, P, Hs) ->
  exists pts IN n0 nerve, generate_cover (fun x => x) max_div overlap dim pc = Ok (pts, IN, (n0, nerve)) /\
  forall n d, (n < length nerve)%nat -> (d < Z.to_nat max_dim)%nat -> exists H, tget (h_hom P) 1 n d = Ok H /\
    barcode p (e2_cycle p Dist IN n0 nerve d n) (e2_bounds p Dist IN n0 nerve d n) max_r (b_bars H).
Proof.
  intros E. unfold create_MV_ss in E. destruct (generate_cover _ _ _ _ _) as [[[pts IN] [n0 nerve]]|] eqn:EG; [|discriminate]. cbn [bind] in E.
  exists pts, IN, n0, nerve. split; [reflexivity|]. intros n d Hn Hd. destruct (create_input _ _ _ _ EG) as [HI HN].
  apply (mv_second_page argsort rnd Dist max_r max_dim p IN n0 nerve S P Hs HI HN (cc_rnd _ _ _ _ _ _ _ _ _ HC) E n d Hn Hd).
Qed.

Theorem create_zero S P Hs : (0 < dim)%nat -> thick dim pc -> (0 <= overlap)%Q ->
  (forall u v e, (u < v < length pc)%nat -> dist Dist u v < max_r -> (e < dim)%nat -> (Qabs (nth e (nth u pc []) 0 - nth e (nth v pc []) 0) <= overlap)%Q) ->
  create_MV_ss argsort rnd (fun x => x) dim pc Dist max_r max_dim max_div overlap p = Ok (S, P, Hs) ->
  exists H0 Hs', Hs = H0 :: Hs' /\ rips_barcode p Dist max_r 0 (b_bars H0).
Proof.
  intros Hd Ht Ho Hn E. unfold create_MV_ss in E. destruct (generate_cover _ _ _ _ _) as [[[pts IN] [n0 nerve]]|] eqn:EG; [|discriminate]. cbn [bind] in E.
  destruct (create_input _ _ _ _ EG) as [HI HN]. destruct HC. assert (Hdiv : 1 <= max_div) by lia.
  assert (Hf : forall d, fine Dist max_r IN n0 d) by (intros d; apply (cover_fine max_div overlap dim pc pts IN n0 nerve); auto).
  apply (mv_degree_zero argsort rnd Dist max_r max_dim p IN n0 nerve S P Hs HI HN); auto.
  intros a b q Ha Hb Hqa Hqb. apply (cover_linked max_div overlap dim pc pts IN n0 nerve Hdiv); auto.
Qed.

Theorem create_flat S P Hs e : (e < dim)%nat -> flat e pc ->
  create_MV_ss argsort rnd (fun x => x) dim pc Dist max_r max_dim max_div overlap p = Ok (S, P, Hs) -> exists H0 Hs', Hs = H0 :: Hs' /\ b_bars H0 = [].
Proof.
  intros He Hf E. unfold create_MV_ss in E. destruct (generate_cover _ _ _ _ _) as [[[pts IN] [n0 nerve]]|] eqn:EG; [|discriminate]. cbn [bind] in E.
  destruct (create_input _ _ _ _ EG) as [HI HN]. destruct HC. assert (Hdiv : 1 <= max_div) by lia.
  destruct (C35_flat_aux max_div overlap dim pc Hdiv cc_rect cc_spread e He Hf pts IN n0 nerve EG) as [-> _].
  apply (mv_no_cover argsort rnd Dist max_r max_dim p IN nerve S P Hs HI HN); auto.
Qed.
End Create.

(** ** Clouds of integer points with squared distances *)
Lemma mv_call_cloud dim pc max_r max_dim max_div overlap p : mv_call dim pc max_r max_dim max_div overlap p -> spread dim (map (map inject_Z) pc) ->
  cloud_call stable_argsort (fun x => x) dim (map (map inject_Z) pc) (sq_dists dim pc) max_r max_dim max_div p.
Proof.
  intros [] Hs. constructor; auto; try apply stable_argsort_sorts; try apply sq_dists_square.
  - intros u v H. rewrite sq_dists_length in H. rewrite sq_dists_nth by lia. apply sq_dist_nonneg.
  - rewrite sq_dists_length, map_length. reflexivity.
  - intros pt Hpt. apply in_map_iff in Hpt. destruct Hpt as (a & <- & Ha). rewrite map_length. rewrite Forall_forall in call_coords. auto.
Qed.

Lemma sq_dist_coord dim a b e : (e < dim)%nat -> (nth e a 0 - nth e b 0) * (nth e a 0 - nth e b 0) <= sq_dist dim a b.
Proof.
  intros He. unfold sq_dist. set (f := fun i => (nth i a 0 - nth i b 0) * (nth i a 0 - nth i b 0)). change (f e <= Zsum dim f).
  assert (Hf : forall i, 0 <= f i) by (intros i; apply Z.square_nonneg). clearbody f. induction dim as [|n IH]; [lia|]. cbn [Zsum].
  destruct (Nat.eq_dec e n) as [->|Hne]; [pose proof (Zsum_nonneg n f ltac:(auto)); lia|]. specialize (IH ltac:(lia)). specialize (Hf n). lia.
Qed.

Lemma sq_below (x m : Z) (o : Q) : x * x < m -> (0 < o)%Q -> (inject_Z m < o * o)%Q -> (Qabs (inject_Z x) <= o)%Q.
Proof.
  intros Hx Ho Hm. apply Qnot_lt_le. intros H. assert (E : (Qabs (inject_Z x) * Qabs (inject_Z x) == inject_Z (x * x))%Q).
  { rewrite <- Qabs_Qmult, <- inject_Z_mult. apply Qabs_pos. change 0%Q with (inject_Z 0). rewrite <- Zle_Qle. apply Z.square_nonneg. }
  assert (L : (o * o < Qabs (inject_Z x) * Qabs (inject_Z x))%Q) by nra. rewrite E in L.
  assert (L2 : (inject_Z (x * x) < inject_Z m)%Q) by (rewrite <- Zlt_Qlt; exact Hx). lra.
Qed.

Theorem integer_zero dim pc max_r max_dim max_div overlap p S P Hs : mv_call dim pc max_r max_dim max_div overlap p -> thick dim (map (map inject_Z) pc) ->
  create_MV_ss stable_argsort (fun x => x) (fun x => x) dim (map (map inject_Z) pc) (sq_dists dim pc) max_r max_dim max_div overlap p = Ok (S, P, Hs) ->
  exists H0 Hs', Hs = H0 :: Hs' /\ rips_barcode p (sq_dists dim pc) max_r 0 (b_bars H0).
Proof.
  intros HM Ht E. pose proof HM as []. assert (Hsp : spread dim (map (map inject_Z) pc)) by (destruct (Ht 0%nat call_dim) as (a & b & Ha & Hb & H); exists 0%nat, a, b; auto).
  destruct call_overlap as [Ho1 Ho2]. refine (create_zero _ _ _ _ _ _ _ _ overlap p (mv_call_cloud _ _ _ _ _ _ _ HM Hsp) S P Hs call_dim Ht _ _ E); [lra|].
  intros u v e Huv Hdist He. rewrite map_length in Huv. rewrite sq_dists_nth in Hdist by lia.
  assert (X : forall k, nth k (map (map inject_Z) pc) [] = map inject_Z (nth k pc [])) by (intros k; change (@nil Q) with (map inject_Z []); apply map_nth).
  rewrite !X. assert (Y : forall a, nth e (map inject_Z a) 0%Q = inject_Z (nth e a 0)) by (intros a; change 0%Q with (inject_Z 0); apply map_nth). rewrite !Y.
  setoid_replace (inject_Z (nth e (nth u pc []) 0%Z) - inject_Z (nth e (nth v pc []) 0%Z))%Q with (inject_Z (nth e (nth u pc []) 0 - nth e (nth v pc []) 0)%Z).
  2:{ unfold Zminus. rewrite inject_Z_plus, inject_Z_opp. reflexivity. }
  apply (sq_below _ max_r); auto. pose proof (sq_dist_coord dim (nth v pc []) (nth u pc []) e He). lia.
Qed.

(** ** Closed forms *)
Lemma cover_aux : forall max_div overlap dim pc pts IN n nerve, 1 <= max_div -> rectangular dim pc -> spread dim pc ->
  generate_cover (fun x => x) max_div overlap dim pc = Ok (pts, IN, (n, nerve)) ->
  covering (length pc) n nerve IN /\ pure_nerve n nerve /\
  forall a b q, (a < n)%nat -> (b < n)%nat -> In q (ins_of IN 0 a) -> In q (ins_of IN 0 b) -> linked IN n nerve q a b.
Proof.
  intros max_div overlap dim pc pts IN n nerve H1 H2 H3 E. split; [|split]; [apply (cover_covering max_div overlap dim pc pts IN n nerve); auto| |].
  - apply (cover_pure max_div overlap dim pc pts IN n nerve); auto.
  - intros a b q. apply (cover_linked max_div overlap dim pc pts IN n nerve); auto.
Qed.

Lemma cover_fine_aux : forall max_div overlap dim pc pts IN n nerve Dist max_r d, 1 <= max_div -> rectangular dim pc -> spread dim pc ->
  (0 < dim)%nat -> thick dim pc -> (0 <= overlap)%Q -> length Dist = length pc ->
  (forall u v e, (u < v < length pc)%nat -> dist Dist u v < max_r -> (e < dim)%nat -> (Qabs (nth e (nth u pc []) 0 - nth e (nth v pc []) 0) <= overlap)%Q) ->
  generate_cover (fun x => x) max_div overlap dim pc = Ok (pts, IN, (n, nerve)) -> fine Dist max_r IN n d.
Proof. intros max_div overlap dim pc pts IN n nerve Dist max_r d H1 H2 H3 H4 H5 H6 H7 H8 E. apply (cover_fine max_div overlap dim pc pts IN n nerve); auto. Qed.

Lemma create_second_aux : forall argsort rnd dim pc Dist max_r max_dim max_div overlap p S P Hs, cloud_call argsort rnd dim pc Dist max_r max_dim max_div p ->
  create_MV_ss argsort rnd (fun x => x) dim pc Dist max_r max_dim max_div overlap p = Ok (S, P, Hs) ->
  exists pts IN n0 nerve, generate_cover (fun x => x) max_div overlap dim pc = Ok (pts, IN, (n0, nerve)) /\
  forall n d, (n < length nerve)%nat -> (d < Z.to_nat max_dim)%nat -> exists H, tget (h_hom P) 1 n d = Ok H /\
    barcode p (e2_cycle p Dist IN n0 nerve d n) (e2_bounds p Dist IN n0 nerve d n) max_r (b_bars H).
Proof. intros. eapply create_second; eassumption. Qed.

Lemma no_result_aux : forall argsort rnd Dist max_r max_dim p IN n0 nerve S n d, mv_input argsort Dist max_r max_dim p IN n0 nerve -> pure_nerve n0 nerve ->
  (forall x y, filtration_value Dist max_r x -> filtration_value Dist max_r y -> rnd x <= rnd y -> x <= y) ->
  zero_page argsort rnd Dist max_r max_dim p IN n0 nerve = Ok S -> (n < length nerve)%nat -> (d < Z.to_nat max_dim)%nat ->
  classes n0 nerve S (Datatypes.S n) d <> 0%nat -> classes n0 nerve S n d = 0%nat ->
  exists e, mv_ss argsort rnd Dist max_r max_dim p IN n0 nerve = Err e.
Proof.
  intros argsort rnd Dist max_r max_dim p IN n0 nerve S n d HI HN Hr EZ Hn Hd H1 H2.
  destruct (mv_ss argsort rnd Dist max_r max_dim p IN n0 nerve) as [[[S' P] Hs]|e] eqn:E; [|exists e; reflexivity]. exfalso.
  destruct (second_page _ _ _ _ _ _ _ _ _ HI HN Hr S' P Hs E n d Hn Hd) as (X & _). apply X. clear X.
  unfold mv_ss in E. rewrite EZ in E. cbn [bind] in E.
  match type of E with bind ?x _ = _ => destruct x as [P1|] eqn:E1; [|discriminate] end. cbn [bind] in E.
  match type of E with bind ?x _ = _ => destruct x as [P2|] eqn:E2; [|discriminate] end. cbn [bind] in E.
  destruct (tget (h_hom P2) _ 0 0); [|discriminate]. cbn [bind] in E. destruct (mapM _ _); [|discriminate]. cbn [bind] in E. injection E as E' _ _. subst S'. auto.
Qed.

Lemma create_zero_aux : forall argsort rnd dim pc Dist max_r max_dim max_div overlap p S P Hs, cloud_call argsort rnd dim pc Dist max_r max_dim max_div p ->
  (0 < dim)%nat -> thick dim pc -> (0 <= overlap)%Q ->
  (forall u v e, (u < v < length pc)%nat -> dist Dist u v < max_r -> (e < dim)%nat -> (Qabs (nth e (nth u pc []) 0 - nth e (nth v pc []) 0) <= overlap)%Q) ->
  create_MV_ss argsort rnd (fun x => x) dim pc Dist max_r max_dim max_div overlap p = Ok (S, P, Hs) ->
  exists H0 Hs', Hs = H0 :: Hs' /\ rips_barcode p Dist max_r 0 (b_bars H0).
Proof. intros argsort rnd dim pc Dist max_r max_dim max_div overlap p S P Hs H1 H2 H3 H4 H5 E. eapply create_zero; eauto. Qed.

Lemma create_flat_aux : forall argsort rnd dim pc Dist max_r max_dim max_div overlap p S P Hs e, cloud_call argsort rnd dim pc Dist max_r max_dim max_div p ->
  (e < dim)%nat -> flat e pc ->
  create_MV_ss argsort rnd (fun x => x) dim pc Dist max_r max_dim max_div overlap p = Ok (S, P, Hs) -> exists H0 Hs', Hs = H0 :: Hs' /\ b_bars H0 = [].
Proof. intros. eapply create_flat; eassumption. Qed.

Lemma flat_aux : exists dim pc max_r max_dim max_div overlap p S P H0 Hs', mv_call dim pc max_r max_dim max_div overlap p /\
  create_MV_ss stable_argsort (fun x => x) (fun x => x) dim (map (map inject_Z) pc) (sq_dists dim pc) max_r max_dim max_div overlap p = Ok (S, P, H0 :: Hs') /\
  ~ rips_barcode p (sq_dists dim pc) max_r 0 (b_bars H0).
Proof.
  set (pc := [[0; 0]; [1; 0]; [2; 0]]).
  destruct (create_MV_ss stable_argsort (fun x => x) (fun x => x) 2 (map (map inject_Z) pc) (sq_dists 2 pc) 3 1 2 (2#1) 5) as [[[S P] Hs]|] eqn:E; [|vm_compute in E; discriminate].
  assert (EH : exists H0 Hs', Hs = H0 :: Hs' /\ b_bars H0 = []) by (vm_compute in E; injection E as _ _ <-; eexists _, _; split; reflexivity).
  destruct EH as (H0 & Hs' & -> & EB). exists 2%nat, pc, 3, 1, 2, (2#1)%Q, 5, S, P, H0, Hs'.
  split; [apply call_ok; reflexivity|]. split; [exact E|]. rewrite EB.
  apply (not_barcode 2 pc 3 1 [[(0, 3); (0, 1); (0, 1)]; []] 0); [lia|vm_compute; reflexivity|cbn; lia|cbn; lia].
Qed.

(** The hypotheses of the theorems on [mv_ss] hold of the cover of a cloud. *)
Lemma run_cover dim pc max_r max_dim max_div overlap p B : cloud_call stable_argsort (fun x => x) dim (map (map inject_Z) pc) (sq_dists dim pc) max_r max_dim max_div p ->
  bars_of (run dim pc max_r max_dim max_div overlap p) = Ok B ->
  exists pts IN n0 nerve S P Hs, generate_cover (fun x => x) max_div overlap dim (map (map inject_Z) pc) = Ok (pts, IN, (n0, nerve)) /\
  mv_input stable_argsort (sq_dists dim pc) max_r max_dim p IN n0 nerve /\ pure_nerve n0 nerve /\
  mv_ss stable_argsort (fun x => x) (sq_dists dim pc) max_r max_dim p IN n0 nerve = Ok (S, P, Hs) /\ map b_bars Hs = B.
Proof.
  intros HC E. unfold run, create_MV_ss in E.
  destruct (generate_cover (fun x => x) max_div overlap dim (map (map inject_Z) pc)) as [[[pts IN] [n0 nerve]]|] eqn:EG; [|discriminate E].
  cbn [bind] in E. destruct (create_input _ _ _ _ _ _ _ _ _ _ HC _ _ _ _ EG) as [HI HN].
  destruct (mv_ss stable_argsort (fun x => x) (sq_dists dim pc) max_r max_dim p IN n0 nerve) as [[[S P] Hs]|] eqn:EM; [|discriminate E].
  injection E as E. exists pts, IN, n0, nerve, S, P, Hs. auto 10.
Qed.
