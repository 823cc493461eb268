(** * Properties C72 and C73: where bars begin and end *)
From Coq Require Import QArith Permutation Znumtheory.
From Verif Require Import Base Basis_model PH_model Simp_model SS_model Cover_model HP_model Spec_Simp Simp_props Spec_PH Spec_Rips Spec_Bars Spec_Call Spec_MV Spec_Two MV_zero MV_two
  Spec_Agree Agree_props MV_props Spec_Comp Comp_props Spec_Ends Rips_cone.
Local Open Scope Z_scope.

(** ** C72: bars begin and end at 0, at distances between points or at [max_r]. *)
Theorem C72_local : forall argsort rnd Dist max_r max_dim p, sorts argsort -> square Dist -> (forall u v, (u < v < length Dist)%nat -> 0 <= dist Dist u v) -> 0 < max_r -> prime p ->
  forall Cs Ds out, local_homology argsort rnd Dist max_r max_dim p = Ok (Cs, Ds, out) ->
  forall d, (d < Z.to_nat (Z.max 1 max_dim))%nat -> at_distances Dist max_r (b_bars (nth d (ph_hom out) empty_basis)).
Proof. exact distances_local. Qed.
Print Assumptions C72_local.

(** For a cover: in degree 0 always, in all degrees if the cloud is divided in one direction only or the intersections are acyclic. *)
Theorem C72_degree_zero : forall argsort rnd dim pc Dist max_r max_dim max_div overlap p S P, sound_call argsort rnd dim pc Dist max_r max_dim max_div overlap p ->
  forall H0 Hs, create_MV_ss argsort rnd (fun x => x) dim pc Dist max_r max_dim max_div overlap p = Ok (S, P, H0 :: Hs) -> at_distances Dist max_r (b_bars H0).
Proof. exact ends_zero. Qed.
Print Assumptions C72_degree_zero.

Theorem C72_cover : forall argsort rnd dim pc Dist max_r max_dim max_div overlap p S P, sound_call argsort rnd dim pc Dist max_r max_dim max_div overlap p ->
  forall Hs, simple_cover dim pc Dist max_r max_dim max_div overlap p -> create_MV_ss argsort rnd (fun x => x) dim pc Dist max_r max_dim max_div overlap p = Ok (S, P, Hs) ->
  exists H0 O, Hs = results H0 O /\ length O = (Z.to_nat max_dim - 1)%nat /\
    forall d, (d < Z.to_nat max_dim)%nat -> at_distances Dist max_r (bars_in H0 O d).
Proof. exact ends_simple. Qed.
Print Assumptions C72_cover.

(** ** C73: beyond the largest distance of a point to the others there is one bar, of degree 0, which does not end. *)
Theorem C73_local : forall argsort rnd Dist max_r max_dim p, sorts argsort -> square Dist -> (forall u v, (u < v < length Dist)%nat -> 0 <= dist Dist u v) -> 0 < max_r -> prime p ->
  forall Cs Ds out, local_homology argsort rnd Dist max_r max_dim p = Ok (Cs, Ds, out) -> forall e a, 0 <= e < max_r -> centre Dist e a ->
  forall d, (d < Z.to_nat (Z.max 1 max_dim))%nat -> ended_by e max_r d (b_bars (nth d (ph_hom out) empty_basis)).
Proof. exact ended_local. Qed.
Print Assumptions C73_local.

(** For a cover in degree 0 only: if everything is near one point and [max_r] larger, the conditions of C68 in all degrees leave but one part. *)
Theorem C73_degree_zero : forall argsort rnd dim pc Dist max_r max_dim max_div overlap p S P, sound_call argsort rnd dim pc Dist max_r max_dim max_div overlap p ->
  forall H0 Hs, create_MV_ss argsort rnd (fun x => x) dim pc Dist max_r max_dim max_div overlap p = Ok (S, P, H0 :: Hs) ->
  forall e a, 0 <= e < max_r -> centre Dist e a -> ended_by e max_r 0 (b_bars H0).
Proof. exact ended_zero. Qed.
Print Assumptions C73_degree_zero.

(** ** A pentagon with a point in the middle which is farther from the corners than they from their neighbours *)
Definition wheel : list (list Z) :=
  [[0; 4; 7; 7; 4; 6]; [4; 0; 4; 7; 7; 6]; [7; 4; 0; 4; 7; 6]; [7; 7; 4; 0; 4; 6]; [4; 7; 7; 4; 0; 6]; [6; 6; 6; 6; 6; 0]].

Example C73_case : square wheel /\ centre wheel 6 5 /\ degree_bars wheel 10 2 3 0 = Ok [(0, 10); (0, 6); (0, 4); (0, 4); (0, 4); (0, 4)] /\ degree_bars wheel 10 2 3 1 = Ok [(4, 6)].
Proof.
  split; [intros i H; change (length wheel) with 6%nat in *; do 6 (destruct i as [|i]; [reflexivity|]); exfalso; lia|]. split; [|split; vm_compute; reflexivity].
  split; [cbn; lia|]. intros v Hv Hne. change (length wheel) with 6%nat in Hv. right. split; [cbn; lia|]. do 5 (destruct v as [|v]; [apply Z.leb_le; reflexivity|]). exfalso; lia.
Qed.

(** ** A ladder divided into two parts which overlap a lot: everything is within squared distance 20 of the middle of a side. *)
Definition ladder : list (list Z) := [[0; 0]; [2; 0]; [4; 0]; [6; 0]; [8; 0]; [0; 2]; [2; 2]; [4; 2]; [6; 2]; [8; 2]].

Example C73_ladder : sound_call stable_argsort (fun x => x) 2 (map (map inject_Z) ladder) (sq_dists 2 ladder) 21 2 2 (5#1) 5 /\ centre (sq_dists 2 ladder) 20 2 /\
  bars_of (run 2 ladder 21 2 2 (5#1) 5) = Ok [(0, 21) :: repeat (0, 4) 9; repeat (4, 8) 4].
Proof.
  split; [apply integer_sound; [apply call_ok; reflexivity|apply thick_ok; reflexivity]|]. split; [|vm_compute; reflexivity].
  split; [cbn; lia|]. intros v Hv Hne. change (length (sq_dists 2 ladder)) with 10%nat in Hv. unfold edge. change (length (sq_dists 2 ladder)) with 10%nat.
  do 10 (destruct v as [|v]; [first [exfalso; lia|left; split; [lia|apply Z.leb_le; reflexivity]|right; split; [lia|apply Z.leb_le; reflexivity]]|]). exfalso; lia.
Qed.

(** The same ladder up to a smaller radius, divided in one direction. *)
Example C72_ladder : sound_call stable_argsort (fun x => x) 2 (map (map inject_Z) ladder) (sq_dists 2 ladder) 9 2 2 (7#2) 5 /\
  simple_cover 2 (map (map inject_Z) ladder) (sq_dists 2 ladder) 9 2 2 (7#2) 5 /\
  bars_of (run 2 ladder 9 2 2 (7#2) 5) = Ok [(0, 9) :: repeat (0, 4) 9; repeat (4, 8) 4].
Proof.
  split; [apply integer_sound; [apply call_ok; reflexivity|apply thick_ok; reflexivity]|].
  split; [left; exists 0%nat; apply long_ok; [lia|vm_compute; reflexivity]|vm_compute; reflexivity].
Qed.
