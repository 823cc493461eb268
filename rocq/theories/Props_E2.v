(** * The second page and the degree 0 of the result: properties C52, C56 and C57 *)
From Coq Require Import QArith.
From Verif Require Import Base SortX Basis_model Simp_model SS_model Cover_model HP_model Spec_Simp Spec_Rips Spec_Bars Spec_SS Spec_E2 Spec_Cech Spec_Cover Spec_Call Spec_MV
  Simp_props MV_props MV_cover HP_second HP_e2 HP_zero MV_zero.
From Coq Require Import Qabs Znumtheory.
Local Open Scope Z_scope.

(** ** C52: [generate_cover] returns what the spectral sequence needs. *)
Theorem C52_cover : forall max_div overlap dim pc pts IN n nerve, 1 <= max_div -> rectangular dim pc -> spread dim pc ->
  generate_cover (fun x => x) max_div overlap dim pc = Ok (pts, IN, (n, nerve)) ->
  covering (length pc) n nerve IN /\ pure_nerve n nerve /\
  forall a b q, (a < n)%nat -> (b < n)%nat -> In q (ins_of IN 0 a) -> In q (ins_of IN 0 b) -> linked IN n nerve q a b.
Proof. exact cover_aux. Qed.
Print Assumptions C52_cover.

(** Points within the overlap of one another in every coordinate share a hypercube. *)
Theorem C52_fine : forall max_div overlap dim pc pts IN n nerve Dist max_r d, 1 <= max_div -> rectangular dim pc -> spread dim pc ->
  (0 < dim)%nat -> thick dim pc -> (0 <= overlap)%Q -> length Dist = length pc ->
  (forall u v e, (u < v < length pc)%nat -> dist Dist u v < max_r -> (e < dim)%nat -> (Qabs (nth e (nth u pc []) 0 - nth e (nth v pc []) 0) <= overlap)%Q) ->
  generate_cover (fun x => x) max_div overlap dim pc = Ok (pts, IN, (n, nerve)) -> fine Dist max_r IN n d.
Proof. exact cover_fine_aux. Qed.
Print Assumptions C52_fine.

(** ** C56: the second page. *)
Theorem C56_second_page : forall argsort rnd Dist max_r max_dim p IN n0 nerve S P Hs, mv_input argsort Dist max_r max_dim p IN n0 nerve -> pure_nerve n0 nerve ->
  (forall x y, filtration_value Dist max_r x -> filtration_value Dist max_r y -> rnd x <= rnd y -> x <= y) ->
  mv_ss argsort rnd Dist max_r max_dim p IN n0 nerve = Ok (S, P, Hs) ->
  forall n d, (n < length nerve)%nat -> (d < Z.to_nat max_dim)%nat -> exists H, tget (h_hom P) 1 n d = Ok H /\
    barcode p (e2_cycle p Dist IN n0 nerve d n) (e2_bounds p Dist IN n0 nerve d n) max_r (b_bars H).
Proof. exact mv_second_page. Qed.
Print Assumptions C56_second_page.

Theorem C56_create : forall argsort rnd dim pc Dist max_r max_dim max_div overlap p S P Hs, cloud_call argsort rnd dim pc Dist max_r max_dim max_div p ->
  create_MV_ss argsort rnd (fun x => x) dim pc Dist max_r max_dim max_div overlap p = Ok (S, P, Hs) ->
  exists pts IN n0 nerve, generate_cover (fun x => x) max_div overlap dim pc = Ok (pts, IN, (n0, nerve)) /\
  forall n d, (n < length nerve)%nat -> (d < Z.to_nat max_dim)%nat -> exists H, tget (h_hom P) 1 n d = Ok H /\
    barcode p (e2_cycle p Dist IN n0 nerve d n) (e2_bounds p Dist IN n0 nerve d n) max_r (b_bars H).
Proof. exact create_second_aux. Qed.
Print Assumptions C56_create.

(** Classes over the simplices of dimension [n + 1] of the nerve but none over those of dimension [n], in the same degree: no result. *)
Theorem C56_no_result : forall argsort rnd Dist max_r max_dim p IN n0 nerve S n d, mv_input argsort Dist max_r max_dim p IN n0 nerve -> pure_nerve n0 nerve ->
  (forall x y, filtration_value Dist max_r x -> filtration_value Dist max_r y -> rnd x <= rnd y -> x <= y) ->
  zero_page argsort rnd Dist max_r max_dim p IN n0 nerve = Ok S -> (n < length nerve)%nat -> (d < Z.to_nat max_dim)%nat ->
  classes n0 nerve S (Datatypes.S n) d <> 0%nat -> classes n0 nerve S n d = 0%nat ->
  exists e, mv_ss argsort rnd Dist max_r max_dim p IN n0 nerve = Err e.
Proof. exact no_result_aux. Qed.
Print Assumptions C56_no_result.

(** ** C57: the degree 0 of the result. *)
Theorem C57_degree_zero : forall argsort rnd Dist max_r max_dim p IN n0 nerve S P Hs, mv_input argsort Dist max_r max_dim p IN n0 nerve -> pure_nerve n0 nerve ->
  (forall x y, filtration_value Dist max_r x -> filtration_value Dist max_r y -> rnd x <= rnd y -> x <= y) ->
  fine Dist max_r IN n0 0 -> fine Dist max_r IN n0 1 ->
  (forall a b q, (a < n0)%nat -> (b < n0)%nat -> In q (ins_of IN 0 a) -> In q (ins_of IN 0 b) -> linked IN n0 nerve q a b) ->
  mv_ss argsort rnd Dist max_r max_dim p IN n0 nerve = Ok (S, P, Hs) ->
  exists H0 Hs', Hs = H0 :: Hs' /\ rips_barcode p Dist max_r 0 (b_bars H0).
Proof. exact mv_degree_zero. Qed.
Print Assumptions C57_degree_zero.

Theorem C57_create : forall argsort rnd dim pc Dist max_r max_dim max_div overlap p S P Hs, cloud_call argsort rnd dim pc Dist max_r max_dim max_div p ->
  (0 < dim)%nat -> thick dim pc -> (0 <= overlap)%Q ->
  (forall u v e, (u < v < length pc)%nat -> dist Dist u v < max_r -> (e < dim)%nat -> (Qabs (nth e (nth u pc []) 0 - nth e (nth v pc []) 0) <= overlap)%Q) ->
  create_MV_ss argsort rnd (fun x => x) dim pc Dist max_r max_dim max_div overlap p = Ok (S, P, Hs) ->
  exists H0 Hs', Hs = H0 :: Hs' /\ rips_barcode p Dist max_r 0 (b_bars H0).
Proof. exact create_zero_aux. Qed.
Print Assumptions C57_create.

Theorem C57_integer : forall dim pc max_r max_dim max_div overlap p S P Hs, mv_call dim pc max_r max_dim max_div overlap p -> thick dim (map (map inject_Z) pc) ->
  create_MV_ss stable_argsort (fun x => x) (fun x => x) dim (map (map inject_Z) pc) (sq_dists dim pc) max_r max_dim max_div overlap p = Ok (S, P, Hs) ->
  exists H0 Hs', Hs = H0 :: Hs' /\ rips_barcode p (sq_dists dim pc) max_r 0 (b_bars H0).
Proof. exact integer_zero. Qed.
Print Assumptions C57_integer.

(** A cloud with a constant coordinate, but not a single point, gets no bars at all in degree 0. *)
Theorem C57_flat : forall argsort rnd dim pc Dist max_r max_dim max_div overlap p S P Hs e, cloud_call argsort rnd dim pc Dist max_r max_dim max_div p ->
  (e < dim)%nat -> flat e pc ->
  create_MV_ss argsort rnd (fun x => x) dim pc Dist max_r max_dim max_div overlap p = Ok (S, P, Hs) -> exists H0 Hs', Hs = H0 :: Hs' /\ b_bars H0 = [].
Proof. exact create_flat_aux. Qed.
Print Assumptions C57_flat.

(** So the condition [thick] of [C57_integer] cannot be left out. *)
Theorem C57_flat_refuted : exists dim pc max_r max_dim max_div overlap p S P H0 Hs', mv_call dim pc max_r max_dim max_div overlap p /\
  create_MV_ss stable_argsort (fun x => x) (fun x => x) dim (map (map inject_Z) pc) (sq_dists dim pc) max_r max_dim max_div overlap p = Ok (S, P, H0 :: Hs') /\
  ~ rips_barcode p (sq_dists dim pc) max_r 0 (b_bars H0).
Proof. exact flat_aux. Qed.
Print Assumptions C57_flat_refuted.

(** ** The ring of sixteen points covered by four squares *)
Definition ring : list (list Z) := [[0;0];[2;0];[4;0];[6;0];[8;0];[8;2];[8;4];[8;6];[8;8];[6;8];[4;8];[2;8];[0;8];[0;6];[0;4];[0;2]].

Lemma ring_thick : thick 2 (map (map inject_Z) ring).
Proof.
  intros [|[|d]] Hd; [| |exfalso; lia]; exists (map inject_Z [0; 0]), (map inject_Z [8; 8]); (split; [apply in_map; unfold ring; cbn [In]; auto 20|split; [apply in_map; unfold ring; cbn [In]; auto 20|reflexivity]]).
Qed.

(** Bars of one place of a page. *)
Definition page_bars (k n d : nat) (r : res (ss * pages * list basis)) : res (list (Z * Z)) :=
  match r with Ok (_, P, _) => match tget (h_hom P) k n d with Ok H => Ok (b_bars H) | Err e => Err e end | Err e => Err e end.

Example C57_ring : mv_call 2 ring 5 2 2 (3#1) 5 /\ thick 2 (map (map inject_Z) ring) /\
  cloud_call stable_argsort (fun x => x) 2 (map (map inject_Z) ring) (sq_dists 2 ring) 5 2 2 5 /\
  bars_of (run 2 ring 5 2 2 (3#1) 5) = Ok [(0, 5) :: repeat (0, 4) 15; [(4, 5)]] /\
  page_bars 1 1 0 (run 2 ring 5 2 2 (3#1) 5) = Ok [(4, 5)] /\ page_bars 1 0 1 (run 2 ring 5 2 2 (3#1) 5) = Ok [].
Proof.
  assert (HM : mv_call 2 ring 5 2 2 (3#1) 5) by (apply call_ok; reflexivity). split; [exact HM|]. split; [apply ring_thick|].
  split; [apply (mv_call_cloud _ _ _ _ _ (3#1)); [exact HM|]; destruct (ring_thick 0%nat ltac:(lia)) as (a & b & H); exists 0%nat, a, b; split; [lia|exact H]|].
  split; [vm_compute; reflexivity|]. split; vm_compute; reflexivity.
Qed.

(** The hypotheses of the theorems on [mv_ss], on the cover of the ring. *)
Example C56_ring : exists pts IN n0 nerve S P Hs, generate_cover (fun x => x) 2 (3#1) 2 (map (map inject_Z) ring) = Ok (pts, IN, (n0, nerve)) /\
  mv_input stable_argsort (sq_dists 2 ring) 5 2 5 IN n0 nerve /\ pure_nerve n0 nerve /\
  mv_ss stable_argsort (fun x => x) (sq_dists 2 ring) 5 2 5 IN n0 nerve = Ok (S, P, Hs) /\ map b_bars Hs = [(0, 5) :: repeat (0, 4) 15; [(4, 5)]].
Proof. destruct C57_ring as (_ & _ & HC & E & _). exact (run_cover _ _ _ _ _ _ _ _ HC E). Qed.
