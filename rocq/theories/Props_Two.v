(** * Clouds divided in one direction only: property C59 *)
From Coq Require Import QArith.
From Verif Require Import Base SortX Basis_model Simp_model SS_model Cover_model HP_model Spec_Simp Spec_Rips Spec_Bars Spec_SS Spec_E2 Spec_Cech Spec_Cover Spec_Call Spec_MV Spec_Two
  Simp_props MV_props MV_zero MV_two Props_E2.
From Coq Require Import Qabs Znumtheory.
Local Open Scope Z_scope.

(** ** C59: if no three elements of the cover meet, whatever is returned is right in every degree. *)
Theorem C59_mv_ss : forall argsort rnd Dist max_r max_dim p IN n0 nerve S P Hs, mv_input argsort Dist max_r max_dim p IN n0 nerve -> pure_nerve n0 nerve ->
  (forall x y, filtration_value Dist max_r x -> filtration_value Dist max_r y -> rnd x <= rnd y -> x <= y) ->
  (1 < length nerve)%nat -> (forall n, (2 <= n)%nat -> level n0 nerve n = []) -> two_cover IN n0 nerve -> (forall d, (d <= Z.to_nat max_dim)%nat -> fine Dist max_r IN n0 d) ->
  mv_ss argsort rnd Dist max_r max_dim p IN n0 nerve = Ok (S, P, Hs) ->
  exists H0 O, Hs = results H0 O /\ length O = (Z.to_nat max_dim - 1)%nat /\ forall d, (d < Z.to_nat max_dim)%nat -> rips_barcode p Dist max_r d (bars_in H0 O d).
Proof. exact mv_two. Qed.
Print Assumptions C59_mv_ss.

Theorem C59_create : forall argsort rnd dim pc Dist max_r max_dim max_div overlap p e S P Hs, cloud_call argsort rnd dim pc Dist max_r max_dim max_div p ->
  thick dim pc -> (0 <= overlap)%Q -> elongated max_div overlap dim pc e ->
  (forall u v f, (u < v < length pc)%nat -> dist Dist u v < max_r -> (f < dim)%nat -> (Qabs (nth f (nth u pc []) 0 - nth f (nth v pc []) 0) <= overlap)%Q) ->
  create_MV_ss argsort rnd (fun x => x) dim pc Dist max_r max_dim max_div overlap p = Ok (S, P, Hs) ->
  exists H0 O, Hs = results H0 O /\ length O = (Z.to_nat max_dim - 1)%nat /\ forall d, (d < Z.to_nat max_dim)%nat -> rips_barcode p Dist max_r d (bars_in H0 O d).
Proof. exact create_two. Qed.
Print Assumptions C59_create.

Theorem C59_integer : forall dim pc max_r max_dim max_div overlap p e S P Hs, mv_call dim pc max_r max_dim max_div overlap p -> thick dim (map (map inject_Z) pc) ->
  elongated max_div overlap dim (map (map inject_Z) pc) e ->
  create_MV_ss stable_argsort (fun x => x) (fun x => x) dim (map (map inject_Z) pc) (sq_dists dim pc) max_r max_dim max_div overlap p = Ok (S, P, Hs) ->
  exists H0 O, Hs = results H0 O /\ length O = (Z.to_nat max_dim - 1)%nat /\ forall d, (d < Z.to_nat max_dim)%nat -> rips_barcode p (sq_dists dim pc) max_r d (bars_in H0 O d).
Proof. exact integer_two. Qed.
Print Assumptions C59_integer.

(** Under the same conditions there may be no result. *)
Theorem C59_returns_refuted : exists dim pc max_r max_dim max_div overlap p e, mv_call dim pc max_r max_dim max_div overlap p /\ thick dim (map (map inject_Z) pc) /\
  elongated max_div overlap dim (map (map inject_Z) pc) e /\
  create_MV_ss stable_argsort (fun x => x) (fun x => x) dim (map (map inject_Z) pc) (sq_dists dim pc) max_r max_dim max_div overlap p = Err RuntimeError.
Proof. exact no_return_aux. Qed.
Print Assumptions C59_returns_refuted.

(** ** Two rings joined by two bridges: the bar [5, 9) of the second column goes on, after its death, as a combination of bars of the first column. *)
Example C59_hour : mv_call 2 hour 10 2 2 (4#1) 5 /\ thick 2 (map (map inject_Z) hour) /\ elongated 2 (4#1) 2 (map (map inject_Z) hour) 0 /\
  bars_of (run 2 hour 10 2 2 (4#1) 5) = Ok [(0, 10) :: repeat (0, 5) 3 ++ repeat (0, 4) 12 ++ repeat (0, 2) 8 ++ repeat (0, 1) 2; [(5, 10); (9, 10); (9, 10)]] /\
  page_bars 1 1 0 (run 2 hour 10 2 2 (4#1) 5) = Ok [(5, 9)].
Proof.
  split; [apply call_ok; reflexivity|]. split; [apply thick_ok; reflexivity|]. split; [apply long_ok; [lia|vm_compute; reflexivity]|]. split; vm_compute; reflexivity.
Qed.

(** The hypotheses of [C59_mv_ss] and [C59_create] on its cover. *)
Example C59_hour_cover : cloud_call stable_argsort (fun x => x) 2 (map (map inject_Z) hour) (sq_dists 2 hour) 10 2 2 5 /\
  exists pts IN n0 nerve S P Hs, generate_cover (fun x => x) 2 (4#1) 2 (map (map inject_Z) hour) = Ok (pts, IN, (n0, nerve)) /\
  mv_input stable_argsort (sq_dists 2 hour) 10 2 5 IN n0 nerve /\ pure_nerve n0 nerve /\
  mv_ss stable_argsort (fun x => x) (sq_dists 2 hour) 10 2 5 IN n0 nerve = Ok (S, P, Hs) /\
  (1 < length nerve)%nat /\ (forall n, (2 <= n)%nat -> level n0 nerve n = []) /\ two_cover IN n0 nerve /\ nth 1 (map b_bars Hs) [] = [(5, 10); (9, 10); (9, 10)].
Proof.
  destruct C59_hour as (HM & HT & HL & E & _).
  assert (HC : cloud_call stable_argsort (fun x => x) 2 (map (map inject_Z) hour) (sq_dists 2 hour) 10 2 2 5).
  { apply (mv_call_cloud _ _ _ _ _ (4#1)); [exact HM|]. destruct (HT 0%nat ltac:(lia)) as (a & b & H). exists 0%nat, a, b. split; [lia|exact H]. }
  split; [exact HC|]. destruct (run_cover _ _ _ _ _ _ _ _ HC E) as (pts & IN & n0 & nerve & S & P & Hs & EG & HI & HN & EM & EB). exists pts, IN, n0, nerve, S, P, Hs.
  split; [exact EG|]. split; [exact HI|]. split; [exact HN|]. split; [exact EM|].
  destruct (long_cover 2 (4#1) 2 (map (map inject_Z) hour) 0 ltac:(lia) (cc_rect _ _ _ _ _ _ _ _ _ HC) ltac:(discriminate) HL _ _ _ _ EG) as (L1 & L2 & L3).
  split; [exact L1|]. split; [exact L2|]. split; [exact L3|]. rewrite EB. reflexivity.
Qed.

(** A surface without boundary: classes in degrees 1 and 2. *)
Example C59_lantern : mv_call 3 lantern 190 3 2 (139#10) 5 /\ thick 3 (map (map inject_Z) lantern) /\ elongated 2 (139#10) 3 (map (map inject_Z) lantern) 0 /\
  bars_of (run 3 lantern 190 3 2 (139#10) 5) =
    Ok [(0, 190) :: repeat (0, 113) 2 ++ repeat (0, 98) 3 ++ repeat (0, 36) 8; repeat (98, 134) 7 ++ repeat (98, 113) 2; [(134, 190)]].
Proof. split; [apply call_ok; reflexivity|]. split; [apply thick_ok; reflexivity|]. split; [apply long_ok; [lia|vm_compute; reflexivity]|]. vm_compute; reflexivity. Qed.
