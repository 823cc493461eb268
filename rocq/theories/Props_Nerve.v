(** * Covers with acyclic intersections: properties C61 and C62 *)
From Coq Require Import QArith.
From Verif Require Import Base SortX Basis_model Simp_model SS_model Cover_model HP_model Spec_Simp Spec_Rips Spec_Bars Spec_SS Spec_E2 Spec_Cech Spec_Cover Spec_Call Spec_MV Spec_Two Spec_Nerve
  Simp_props MV_props MV_cover MV_zero Props_E2 Nerve_e2 Nerve_mv Nerve_err Nerve_twin Nerve_result Nerve_returns.
From Coq Require Import Qabs Znumtheory.
Local Open Scope Z_scope.

(** ** C61: if all intersections are acyclic, the second page has one row, and its places are the persistent homology of the cloud. *)
Theorem C61_algebra : forall argsort Dist max_r max_dim p IN n0 nerve n bars, mv_input argsort Dist max_r max_dim p IN n0 nerve -> full_nerve IN n0 nerve -> acyclic_cover p Dist max_r max_dim IN n0 nerve ->
  (forall d, (d <= Z.to_nat max_dim)%nat -> fine Dist max_r IN n0 d) -> (0 < n < Z.to_nat max_dim)%nat ->
  barcode p (e2_cycle p Dist IN n0 nerve 0 n) (e2_bounds p Dist IN n0 nerve 0 n) max_r bars -> rips_barcode p Dist max_r n bars.
Proof. exact acyclic_e2. Qed.
Print Assumptions C61_algebra.

Theorem C61_second_page : forall argsort rnd Dist max_r max_dim p IN n0 nerve S P Hs, mv_input argsort Dist max_r max_dim p IN n0 nerve -> pure_nerve n0 nerve ->
  (forall x y, filtration_value Dist max_r x -> filtration_value Dist max_r y -> rnd x <= rnd y -> x <= y) ->
  full_nerve IN n0 nerve -> acyclic_cover p Dist max_r max_dim IN n0 nerve -> (forall d, (d <= Z.to_nat max_dim)%nat -> fine Dist max_r IN n0 d) ->
  mv_ss argsort rnd Dist max_r max_dim p IN n0 nerve = Ok (S, P, Hs) ->
  (forall n d, (n < length nerve)%nat -> (d < Z.to_nat max_dim)%nat -> exists H, tget (h_hom P) 1 n d = Ok H /\
     ((0 < d)%nat -> b_bars H = []) /\ ((d = 0)%nat -> (0 < n < Z.to_nat max_dim)%nat -> rips_barcode p Dist max_r n (b_bars H))) /\
  forall n, (0 < n)%nat -> (length nerve <= n < Z.to_nat max_dim)%nat -> rips_barcode p Dist max_r n [].
Proof. exact mv_nerve_page. Qed.
Print Assumptions C61_second_page.

Theorem C61_create_page : forall argsort rnd dim pc Dist max_r max_dim max_div overlap p S P Hs, cloud_call argsort rnd dim pc Dist max_r max_dim max_div p ->
  (0 < dim)%nat -> thick dim pc -> (0 <= overlap)%Q -> wide max_div overlap dim pc ->
  (forall u v e, (u < v < length pc)%nat -> dist Dist u v < max_r -> (e < dim)%nat -> (Qabs (nth e (nth u pc []) 0 - nth e (nth v pc []) 0) <= overlap)%Q) ->
  (forall pts IN n0 nerve, generate_cover (fun x => x) max_div overlap dim pc = Ok (pts, IN, (n0, nerve)) -> acyclic_cover p Dist max_r max_dim IN n0 nerve) ->
  create_MV_ss argsort rnd (fun x => x) dim pc Dist max_r max_dim max_div overlap p = Ok (S, P, Hs) ->
  (forall n d, (n < 2 ^ dim)%nat -> (d < Z.to_nat max_dim)%nat -> exists H, tget (h_hom P) 1 n d = Ok H /\
     ((0 < d)%nat -> b_bars H = []) /\ ((d = 0)%nat -> (0 < n < Z.to_nat max_dim)%nat -> rips_barcode p Dist max_r n (b_bars H))) /\
  forall n, (0 < n)%nat -> (2 ^ dim <= n < Z.to_nat max_dim)%nat -> rips_barcode p Dist max_r n [].
Proof. exact create_nerve_page. Qed.
Print Assumptions C61_create_page.

(** ** The ring of sixteen points covered by four squares: the squares and their intersections are acyclic, the ring is not. *)
Lemma ring_wide : wide 2 (3#1) 2 (map (map inject_Z) ring).
Proof. exists 0%nat, (map inject_Z [0; 0]), (map inject_Z [8; 0]). split; [lia|]. split; [apply in_map; unfold ring; cbn [In]; auto 20|]. split; [apply in_map; unfold ring; cbn [In]; auto 20|]. split; reflexivity. Qed.

Example C61_ring : cloud_call stable_argsort (fun x => x) 2 (map (map inject_Z) ring) (sq_dists 2 ring) 5 2 2 5 /\ thick 2 (map (map inject_Z) ring) /\ wide 2 (3#1) 2 (map (map inject_Z) ring) /\
  (forall pts IN n0 nerve, generate_cover (fun x => x) 2 (3#1) 2 (map (map inject_Z) ring) = Ok (pts, IN, (n0, nerve)) ->
     mv_input stable_argsort (sq_dists 2 ring) 5 2 5 IN n0 nerve /\ pure_nerve n0 nerve /\ full_nerve IN n0 nerve /\ (forall d, fine (sq_dists 2 ring) 5 IN n0 d) /\
     acyclic_cover 5 (sq_dists 2 ring) 5 2 IN n0 nerve) /\
  page_bars 1 1 0 (run 2 ring 5 2 2 (3#1) 5) = Ok [(4, 5)] /\ page_bars 1 0 1 (run 2 ring 5 2 2 (3#1) 5) = Ok [].
Proof.
  destruct C57_ring as (HM & HT & HC & _ & E1 & E2). split; [exact HC|]. split; [exact HT|]. split; [exact ring_wide|]. split; [|split; assumption]. intros pts IN n0 nerve EG.
  destruct (integer_conditions _ _ _ _ _ _ _ HM HT) as (_ & H1 & H2 & H3).
  destruct (create_nerve_input _ _ _ _ _ _ _ _ _ _ HC H1 HT H2 ring_wide H3 pts IN n0 nerve EG) as (X1 & X2 & X3 & X4). do 4 (split; [assumption|]).
  apply (calm_ok 2 ring 5 2 2 (3#1) 5 HC) with (pts := pts); [|exact EG]. vm_compute. reflexivity.
Qed.

(** ** C62: on such covers [mv_ss] need not return.
    The classes of place (2, 0) keep their coordinates on the third page instead of the identity, and the lift to that page appends matrices of different heights. *)
Theorem C62_total_refuted : exists Dist max_r max_dim p IN n0 nerve,
  mv_input stable_argsort Dist max_r max_dim p IN n0 nerve /\ pure_nerve n0 nerve /\ full_nerve IN n0 nerve /\ acyclic_cover p Dist max_r max_dim IN n0 nerve /\ (forall d, fine Dist max_r IN n0 d) /\
  mv_ss stable_argsort (fun x => x) Dist max_r max_dim p IN n0 nerve = Err ValueError.
Proof. exact acyclic_error. Qed.
Print Assumptions C62_total_refuted.

(** ** C62 as stated is false for degree 1 alone: five points with a symmetric distance and the triangle inequality, two of them at distance 0 and one of these two in one element more, for which it raises RuntimeError. *)
Theorem C62_degree_one_refuted : exists Dist max_r p IN n0 nerve,
  mv_input stable_argsort Dist max_r 2 p IN n0 nerve /\ pure_nerve n0 nerve /\ (1 < length nerve)%nat /\ full_nerve IN n0 nerve /\ acyclic_cover p Dist max_r 2 IN n0 nerve /\ (forall d, fine Dist max_r IN n0 d) /\
  (forall i j k, (i < length Dist)%nat -> (j < length Dist)%nat -> (k < length Dist)%nat -> dist Dist i j <= dist Dist i k + dist Dist k j /\ dist Dist i j = dist Dist j i) /\
  mv_ss stable_argsort (fun x => x) Dist max_r 2 p IN n0 nerve = Err RuntimeError.
Proof. exact twin_refuted. Qed.
Print Assumptions C62_degree_one_refuted.

(** ** C62: when it returns, its result is the Rips barcode in every degree below [max_dim] *)
Theorem C62_result : forall argsort rnd Dist max_r max_dim p IN n0 nerve, mv_input argsort Dist max_r max_dim p IN n0 nerve -> pure_nerve n0 nerve ->
  (forall x y, filtration_value Dist max_r x -> filtration_value Dist max_r y -> rnd x <= rnd y -> x <= y) -> (1 < length nerve)%nat -> forall S P Hs,
  full_nerve IN n0 nerve -> acyclic_cover p Dist max_r max_dim IN n0 nerve -> (forall d, (d <= Z.to_nat max_dim)%nat -> fine Dist max_r IN n0 d) ->
  mv_ss argsort rnd Dist max_r max_dim p IN n0 nerve = Ok (S, P, Hs) ->
  exists H0 O, Hs = results H0 O /\ length O = (Z.to_nat max_dim - 1)%nat /\ forall d, (d < Z.to_nat max_dim)%nat -> rips_barcode p Dist max_r d (bars_in H0 O d).
Proof. exact nerve_result. Qed.
Print Assumptions C62_result.

Theorem C62_create : forall argsort rnd dim pc Dist max_r max_dim max_div overlap p S P Hs, cloud_call argsort rnd dim pc Dist max_r max_dim max_div p ->
  (0 < dim)%nat -> thick dim pc -> (0 <= overlap)%Q -> wide max_div overlap dim pc ->
  (forall u v e, (u < v < length pc)%nat -> dist Dist u v < max_r -> (e < dim)%nat -> (Qabs (nth e (nth u pc []) 0 - nth e (nth v pc []) 0) <= overlap)%Q) ->
  (forall pts IN n0 nerve, generate_cover (fun x => x) max_div overlap dim pc = Ok (pts, IN, (n0, nerve)) -> acyclic_cover p Dist max_r max_dim IN n0 nerve) ->
  create_MV_ss argsort rnd (fun x => x) dim pc Dist max_r max_dim max_div overlap p = Ok (S, P, Hs) ->
  exists H0 O, Hs = results H0 O /\ length O = (Z.to_nat max_dim - 1)%nat /\ forall d, (d < Z.to_nat max_dim)%nat -> rips_barcode p Dist max_r d (bars_in H0 O d).
Proof. exact create_nerve_result. Qed.
Print Assumptions C62_create.

(** ** C62: it does not return whenever a bar of degree 2 or more, below [max_dim], ends before [max_r] *)
Theorem C62_short_bar : forall argsort rnd Dist max_r max_dim p IN n0 nerve, mv_input argsort Dist max_r max_dim p IN n0 nerve -> pure_nerve n0 nerve ->
  (forall x y, filtration_value Dist max_r x -> filtration_value Dist max_r y -> rnd x <= rnd y -> x <= y) -> (1 < length nerve)%nat -> forall n bars x,
  full_nerve IN n0 nerve -> acyclic_cover p Dist max_r max_dim IN n0 nerve -> (forall d, (d <= Z.to_nat max_dim)%nat -> fine Dist max_r IN n0 d) ->
  (2 <= n < Z.to_nat max_dim)%nat -> rips_barcode p Dist max_r n bars -> In x bars -> snd x < max_r ->
  exists e, mv_ss argsort rnd Dist max_r max_dim p IN n0 nerve = Err e.
Proof. exact nerve_short. Qed.
Print Assumptions C62_short_bar.

Theorem C62_create_short_bar : forall argsort rnd dim pc Dist max_r max_dim max_div overlap p n bars x, cloud_call argsort rnd dim pc Dist max_r max_dim max_div p ->
  (0 < dim)%nat -> thick dim pc -> (0 <= overlap)%Q -> wide max_div overlap dim pc ->
  (forall u v e, (u < v < length pc)%nat -> dist Dist u v < max_r -> (e < dim)%nat -> (Qabs (nth e (nth u pc []) 0 - nth e (nth v pc []) 0) <= overlap)%Q) ->
  (forall pts IN n0 nerve, generate_cover (fun x => x) max_div overlap dim pc = Ok (pts, IN, (n0, nerve)) -> acyclic_cover p Dist max_r max_dim IN n0 nerve) ->
  (2 <= n < Z.to_nat max_dim)%nat -> rips_barcode p Dist max_r n bars -> In x bars -> snd x < max_r ->
  exists e, create_MV_ss argsort rnd (fun x => x) dim pc Dist max_r max_dim max_div overlap p = Err e.
Proof. exact create_nerve_short. Qed.
Print Assumptions C62_create_short_bar.

(** ** C62: it returns when every bar of positive degree below [max_dim] reaches [max_r] *)
Theorem C62_long_bars : forall argsort rnd Dist max_r max_dim p IN n0 nerve, mv_input argsort Dist max_r max_dim p IN n0 nerve -> pure_nerve n0 nerve ->
  (forall x y, filtration_value Dist max_r x -> filtration_value Dist max_r y -> rnd x <= rnd y -> x <= y) -> (1 < length nerve)%nat ->
  full_nerve IN n0 nerve -> acyclic_cover p Dist max_r max_dim IN n0 nerve -> (forall d, (d <= Z.to_nat max_dim)%nat -> fine Dist max_r IN n0 d) ->
  (forall n bars x, (1 <= n < Z.to_nat max_dim)%nat -> rips_barcode p Dist max_r n bars -> In x bars -> snd x = max_r) ->
  exists S P H0 O, mv_ss argsort rnd Dist max_r max_dim p IN n0 nerve = Ok (S, P, results H0 O) /\ length O = (Z.to_nat max_dim - 1)%nat /\
    forall d, (d < Z.to_nat max_dim)%nat -> rips_barcode p Dist max_r d (bars_in H0 O d).
Proof. exact nerve_long. Qed.
Print Assumptions C62_long_bars.

Theorem C62_create_long_bars : forall argsort rnd dim pc Dist max_r max_dim max_div overlap p, cloud_call argsort rnd dim pc Dist max_r max_dim max_div p ->
  (0 < dim)%nat -> thick dim pc -> (0 <= overlap)%Q -> wide max_div overlap dim pc ->
  (forall u v e, (u < v < length pc)%nat -> dist Dist u v < max_r -> (e < dim)%nat -> (Qabs (nth e (nth u pc []) 0 - nth e (nth v pc []) 0) <= overlap)%Q) ->
  (forall pts IN n0 nerve, generate_cover (fun x => x) max_div overlap dim pc = Ok (pts, IN, (n0, nerve)) -> acyclic_cover p Dist max_r max_dim IN n0 nerve) ->
  (forall n bars x, (1 <= n < Z.to_nat max_dim)%nat -> rips_barcode p Dist max_r n bars -> In x bars -> snd x = max_r) ->
  exists S P H0 O, create_MV_ss argsort rnd (fun x => x) dim pc Dist max_r max_dim max_div overlap p = Ok (S, P, results H0 O) /\ length O = (Z.to_nat max_dim - 1)%nat /\
    forall d, (d < Z.to_nat max_dim)%nat -> rips_barcode p Dist max_r d (bars_in H0 O d).
Proof. exact create_nerve_long. Qed.
Print Assumptions C62_create_long_bars.

(** The octahedron, cut before its class of degree 2 ends and after.  Degree 1 has no entry in the result, so that the bar of degree 2 stands in second place. *)
Example C62_octa : mv_input stable_argsort octa_Dist 2 3 5 octa_IN 4 octa_nerve /\ pure_nerve 4 octa_nerve /\ (1 < length octa_nerve)%nat /\ full_nerve octa_IN 4 octa_nerve /\
  acyclic_cover 5 octa_Dist 2 3 octa_IN 4 octa_nerve /\ (forall d, fine octa_Dist 2 octa_IN 4 d) /\
  result_bars (mv_ss stable_argsort (fun x => x) octa_Dist 2 3 5 octa_IN 4 octa_nerve) = Ok [[(0, 2); (0, 2); (0, 1); (0, 1); (0, 1); (0, 1); (0, 1)]; [(1, 2)]].
Proof. exact (conj octa_input2 (conj octa_pure (conj octa_long (conj octa_full (conj octa_acyclic2 (conj octa_fine2 octa_result2)))))). Qed.

(** The hypothesis of [C62_long_bars] for the octahedron cut before its class ends. *)
Example C62_octa_long : forall n bars x, (1 <= n < Z.to_nat 3)%nat -> rips_barcode 5 octa_Dist 2 n bars -> In x bars -> snd x = 2.
Proof. exact octa_reach. Qed.

Example C62_octa_short : mv_input stable_argsort octa_Dist 3 3 5 octa_IN 4 octa_nerve /\ pure_nerve 4 octa_nerve /\ (1 < length octa_nerve)%nat /\ full_nerve octa_IN 4 octa_nerve /\
  acyclic_cover 5 octa_Dist 3 3 octa_IN 4 octa_nerve /\ (forall d, fine octa_Dist 3 octa_IN 4 d) /\ rips_barcode 5 octa_Dist 3 2 [(1, 2)].
Proof. exact (conj octa_input (conj octa_pure (conj octa_long (conj octa_full (conj octa_acyclic (conj octa_fine octa_bar)))))). Qed.

(** The ring again, for the whole computation: its class of degree 1 is in the result. *)
Example C62_ring : result_bars (run 2 ring 5 2 2 (3#1) 5) = Ok [(0, 5) :: repeat (0, 4) 15; [(4, 5)]].
Proof. vm_compute. reflexivity. Qed.
