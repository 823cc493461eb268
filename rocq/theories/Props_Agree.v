(** * Properties C68 and C69: results of [create_MV_ss] for different covers, and for changed distances *)
From Coq Require Import QArith Permutation Znumtheory.
From Verif Require Import Base Basis_model PH_model Simp_model SS_model Cover_model HP_model Spec_Simp Simp_props Spec_PH Spec_Rips Spec_Bars Spec_SS Spec_E2 Spec_Cover Spec_Call Spec_MV Spec_Two Spec_Nerve
  MV_props MV_zero MV_two Spec_Symm Spec_Agree Agree_props.
Local Open Scope Z_scope.

(** ** C68: the bars of degree 0 do not depend on the cover. *)
Theorem C68_degree_zero : forall as1 as2 rnd1 rnd2 dim1 dim2 pc1 pc2 Dist M m1 m2 div1 div2 ov1 ov2 p S P H0 Hs S' P' H0' Hs',
  sound_call as1 rnd1 dim1 pc1 Dist M m1 div1 ov1 p -> sound_call as2 rnd2 dim2 pc2 Dist M m2 div2 ov2 p ->
  create_MV_ss as1 rnd1 (fun x => x) dim1 pc1 Dist M m1 div1 ov1 p = Ok (S, P, H0 :: Hs) ->
  create_MV_ss as2 rnd2 (fun x => x) dim2 pc2 Dist M m2 div2 ov2 p = Ok (S', P', H0' :: Hs') ->
  Permutation (b_bars H0') (b_bars H0).
Proof. exact agree_cover_zero. Qed.
Print Assumptions C68_degree_zero.

(** In all degrees if the clouds are divided in one direction only or the intersections are acyclic. *)
Theorem C68_cover : forall as1 as2 rnd1 rnd2 dim1 dim2 pc1 pc2 Dist M m1 m2 div1 div2 ov1 ov2 p S P Hs S' P' Hs',
  sound_call as1 rnd1 dim1 pc1 Dist M m1 div1 ov1 p -> simple_cover dim1 pc1 Dist M m1 div1 ov1 p ->
  sound_call as2 rnd2 dim2 pc2 Dist M m2 div2 ov2 p -> simple_cover dim2 pc2 Dist M m2 div2 ov2 p ->
  create_MV_ss as1 rnd1 (fun x => x) dim1 pc1 Dist M m1 div1 ov1 p = Ok (S, P, Hs) ->
  create_MV_ss as2 rnd2 (fun x => x) dim2 pc2 Dist M m2 div2 ov2 p = Ok (S', P', Hs') ->
  exists H0 O H0' O', Hs = results H0 O /\ length O = (Z.to_nat m1 - 1)%nat /\ Hs' = results H0' O' /\ length O' = (Z.to_nat m2 - 1)%nat /\
    forall d, (d < Z.to_nat m1)%nat -> (d < Z.to_nat m2)%nat -> Permutation (bars_in H0' O' d) (bars_in H0 O d).
Proof. exact agree_cover. Qed.
Print Assumptions C68_cover.

(** They are those of the local pipeline on the whole cloud. *)
Theorem C68_whole_zero : forall as1 as2 rnd1 rnd2 dim pc Dist M m1 m2 div ov p S P H0 Hs Cs Ds out, sorts as2 ->
  sound_call as1 rnd1 dim pc Dist M m1 div ov p ->
  create_MV_ss as1 rnd1 (fun x => x) dim pc Dist M m1 div ov p = Ok (S, P, H0 :: Hs) -> local_homology as2 rnd2 Dist M m2 p = Ok (Cs, Ds, out) ->
  Permutation (b_bars H0) (b_bars (nth 0 (ph_hom out) empty_basis)).
Proof. exact agree_local_zero. Qed.
Print Assumptions C68_whole_zero.

Theorem C68_whole : forall as1 as2 rnd1 rnd2 dim pc Dist M m1 m2 div ov p S P Hs Cs Ds out, sorts as2 ->
  sound_call as1 rnd1 dim pc Dist M m1 div ov p -> simple_cover dim pc Dist M m1 div ov p ->
  create_MV_ss as1 rnd1 (fun x => x) dim pc Dist M m1 div ov p = Ok (S, P, Hs) -> local_homology as2 rnd2 Dist M m2 p = Ok (Cs, Ds, out) ->
  exists H0 O, Hs = results H0 O /\ length O = (Z.to_nat m1 - 1)%nat /\
    forall d, (d < Z.to_nat m1)%nat -> (d < Z.to_nat (Z.max 1 m2))%nat -> Permutation (bars_in H0 O d) (b_bars (nth d (ph_hom out) empty_basis)).
Proof. exact agree_local. Qed.
Print Assumptions C68_whole.

(** ** C69: the same changes as in C64 to C67, for the whole computation. *)
Theorem C69_degree_zero : forall as1 as2 rnd1 rnd2 dim1 dim2 pc1 pc2 Dist Dist' M M' m1 m2 div1 div2 ov1 ov2 p t S P H0 Hs S' P' H0' Hs',
  sound_call as1 rnd1 dim1 pc1 Dist M m1 div1 ov1 p -> sound_call as2 rnd2 dim2 pc2 Dist' M' m2 div2 ov2 p -> change Dist Dist' M M' t ->
  create_MV_ss as1 rnd1 (fun x => x) dim1 pc1 Dist M m1 div1 ov1 p = Ok (S, P, H0 :: Hs) ->
  create_MV_ss as2 rnd2 (fun x => x) dim2 pc2 Dist' M' m2 div2 ov2 p = Ok (S', P', H0' :: Hs') ->
  Permutation (b_bars H0') (t (b_bars H0)).
Proof. exact agree_zero. Qed.
Print Assumptions C69_degree_zero.

Theorem C69_change : forall as1 as2 rnd1 rnd2 dim1 dim2 pc1 pc2 Dist Dist' M M' m1 m2 div1 div2 ov1 ov2 p t S P Hs S' P' Hs',
  sound_call as1 rnd1 dim1 pc1 Dist M m1 div1 ov1 p -> simple_cover dim1 pc1 Dist M m1 div1 ov1 p ->
  sound_call as2 rnd2 dim2 pc2 Dist' M' m2 div2 ov2 p -> simple_cover dim2 pc2 Dist' M' m2 div2 ov2 p -> change Dist Dist' M M' t ->
  create_MV_ss as1 rnd1 (fun x => x) dim1 pc1 Dist M m1 div1 ov1 p = Ok (S, P, Hs) ->
  create_MV_ss as2 rnd2 (fun x => x) dim2 pc2 Dist' M' m2 div2 ov2 p = Ok (S', P', Hs') ->
  exists H0 O H0' O', Hs = results H0 O /\ length O = (Z.to_nat m1 - 1)%nat /\ Hs' = results H0' O' /\ length O' = (Z.to_nat m2 - 1)%nat /\
    forall d, (d < Z.to_nat m1)%nat -> (d < Z.to_nat m2)%nat -> Permutation (bars_in H0' O' d) (t (bars_in H0 O d)).
Proof. exact agree_all. Qed.
Print Assumptions C69_change.

(** ** A frame of sixteen points, divided into two and into three parts, and the frame of twice its size with a corner twice *)
Definition frame : list (list Z) := [[0;0];[2;0];[4;0];[6;0];[8;0];[10;0];[12;0];[12;2];[12;4];[10;4];[8;4];[6;4];[4;4];[2;4];[0;4];[0;2]].
Definition frame_two : list (list Z) := map (map (Z.mul 2)) frame.
Definition frame_more : list (list Z) := frame ++ [[12; 4]].

Lemma frame_call div : (div = 2 \/ div = 3) -> sound_call stable_argsort (fun x => x) 2 (map (map inject_Z) frame) (sq_dists 2 frame) 9 2 div (7#2) 5 /\
  simple_cover 2 (map (map inject_Z) frame) (sq_dists 2 frame) 9 2 div (7#2) 5.
Proof.
  intros H. split.
  - destruct H as [-> | ->]; (apply integer_sound; [apply call_ok; reflexivity|apply thick_ok; reflexivity]).
  - left. exists 0%nat. destruct H as [-> | ->]; (apply long_ok; [lia|vm_compute; reflexivity]).
Qed.

Example C68_frame : bars_of (run 2 frame 9 2 2 (7#2) 5) = Ok [(0, 9) :: repeat (0, 4) 15; [(4, 9)]] /\ bars_of (run 2 frame 9 2 3 (7#2) 5) = Ok [(0, 9) :: repeat (0, 4) 15; [(4, 9)]].
Proof. split; vm_compute; reflexivity. Qed.

Example C69_frame : sound_call stable_argsort (fun x => x) 2 (map (map inject_Z) frame_two) (sq_dists 2 frame_two) 36 2 3 (7#1) 5 /\
  simple_cover 2 (map (map inject_Z) frame_two) (sq_dists 2 frame_two) 36 2 3 (7#1) 5 /\
  change (sq_dists 2 frame) (sq_dists 2 frame_two) 9 36 (scale_bars (Z.mul 4)) /\
  bars_of (run 2 frame_two 36 2 3 (7#1) 5) = Ok [(0, 36) :: repeat (0, 16) 15; [(16, 36)]].
Proof.
  split; [apply integer_sound; [apply call_ok; reflexivity|apply thick_ok; reflexivity]|].
  split; [left; exists 0%nat; apply long_ok; [lia|vm_compute; reflexivity]|].
  split; [|vm_compute; reflexivity]. apply by_scale; [split; [reflexivity|intros; lia]| |reflexivity]. split; [reflexivity|].
  intros u v Huv. change (length (sq_dists 2 frame)) with 16%nat in Huv. do 16 (destruct v as [|v]; [do 16 (destruct u as [|u]; [first [exfalso; lia|reflexivity]|]); exfalso; lia|]). exfalso; lia.
Qed.

Example C69_frame_more : sound_call stable_argsort (fun x => x) 2 (map (map inject_Z) frame_more) (sq_dists 2 frame_more) 9 2 2 (7#2) 5 /\
  simple_cover 2 (map (map inject_Z) frame_more) (sq_dists 2 frame_more) 9 2 2 (7#2) 5 /\
  change (sq_dists 2 frame) (sq_dists 2 frame_more) 9 9 (fun bars => bars) /\
  bars_of (run 2 frame_more 9 2 2 (7#2) 5) = Ok [(0, 9) :: repeat (0, 4) 15; [(4, 9)]].
Proof.
  split; [apply integer_sound; [apply call_ok; reflexivity|apply thick_ok; reflexivity]|].
  split; [left; exists 0%nat; apply long_ok; [lia|vm_compute; reflexivity]|].
  split; [|vm_compute; reflexivity]. apply by_repeat with (l := seq 0 16 ++ [8%nat]); [| | |reflexivity].
  - intros u v Hu Hv. change (length (sq_dists 2 frame)) with 16%nat in Hu, Hv. do 16 (destruct v as [|v]; [do 16 (destruct u as [|u]; [reflexivity|]); exfalso; lia|]). exfalso; lia.
  - intros u Hu. change (length (sq_dists 2 frame)) with 16%nat in Hu. do 16 (destruct u as [|u]; [reflexivity|]). exfalso; lia.
  - split; [reflexivity|]. split.
    + intros v. change (length (sq_dists 2 frame)) with 16%nat. rewrite in_app_iff, in_seq. cbn [In]. lia.
    + intros u v Huv. change (length (seq 0 16 ++ [8%nat])) with 17%nat in Huv. do 17 (destruct v as [|v]; [do 17 (destruct u as [|u]; [first [exfalso; lia|reflexivity]|]); exfalso; lia|]). exfalso; lia.
Qed.
