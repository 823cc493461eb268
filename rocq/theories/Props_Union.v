(** * Property C78: clouds made of two parts far from each other *)
From Coq Require Import QArith Permutation Znumtheory.
From Verif Require Import Base Basis_model PH_model Simp_model SS_model Cover_model HP_model Spec_Simp Simp_props Spec_PH Spec_Rips Spec_Bars Spec_Call Spec_MV Spec_Two Spec_Nerve
  MV_props MV_zero MV_two Spec_Symm Spec_Agree Agree_props Comp_props Rips_order Spec_Union Rips_union Union_props Props_Stable.
Local Open Scope Z_scope.

(** ** C78: if the points, put into some order, are those of two clouds with a distance of at least [M] from each other, then the bars up to [M] are those of the two clouds together. *)
Theorem C78_barcode : forall p M l Dist Dist0 D1 D2 d bars b1 b2, prime p -> symmetric Dist -> reordered l Dist Dist0 -> far_parts M Dist0 D1 D2 ->
  rips_barcode p Dist M d bars -> rips_barcode p D1 M d b1 -> rips_barcode p D2 M d b2 -> Permutation bars (b1 ++ b2).
Proof. exact union_bars. Qed.
Print Assumptions C78_barcode.

(** The bars computed by [persistent_homology] for the three clouds. *)
Theorem C78_local : forall as0 as1 as2 rnd0 rnd1 rnd2 l Dist Dist0 D1 D2 max_r m m1 m2 p, sorts as0 -> sorts as1 -> sorts as2 -> square Dist -> square D1 -> square D2 ->
  (forall u v, (u < v < length Dist)%nat -> 0 <= dist Dist u v) -> (forall u v, (u < v < length D1)%nat -> 0 <= dist D1 u v) -> (forall u v, (u < v < length D2)%nat -> 0 <= dist D2 u v) ->
  0 < max_r -> prime p -> symmetric Dist -> reordered l Dist Dist0 -> far_parts max_r Dist0 D1 D2 ->
  forall Cs Ds out Cs1 Ds1 out1 Cs2 Ds2 out2, local_homology as0 rnd0 Dist max_r m p = Ok (Cs, Ds, out) -> local_homology as1 rnd1 D1 max_r m1 p = Ok (Cs1, Ds1, out1) -> local_homology as2 rnd2 D2 max_r m2 p = Ok (Cs2, Ds2, out2) ->
  forall d, (d < Z.to_nat (Z.max 1 m))%nat -> (d < Z.to_nat (Z.max 1 m1))%nat -> (d < Z.to_nat (Z.max 1 m2))%nat ->
  Permutation (b_bars (nth d (ph_hom out) empty_basis)) (b_bars (nth d (ph_hom out1) empty_basis) ++ b_bars (nth d (ph_hom out2) empty_basis)).
Proof. exact union_local. Qed.
Print Assumptions C78_local.

(** The bars returned by [create_MV_ss] for the whole cloud, in degree 0 ... *)
Theorem C78_degree_zero : forall as0 as1 as2 rnd0 rnd1 rnd2 l dim pc Dist Dist0 D1 D2 M m m1 m2 div ov p, sound_call as0 rnd0 dim pc Dist M m div ov p -> sorts as1 -> sorts as2 -> square D1 -> square D2 ->
  (forall u v, (u < v < length D1)%nat -> 0 <= dist D1 u v) -> (forall u v, (u < v < length D2)%nat -> 0 <= dist D2 u v) -> 0 < M -> symmetric Dist -> reordered l Dist Dist0 -> far_parts M Dist0 D1 D2 ->
  forall S P H0 Hs Cs1 Ds1 out1 Cs2 Ds2 out2, create_MV_ss as0 rnd0 (fun x => x) dim pc Dist M m div ov p = Ok (S, P, H0 :: Hs) ->
  local_homology as1 rnd1 D1 M m1 p = Ok (Cs1, Ds1, out1) -> local_homology as2 rnd2 D2 M m2 p = Ok (Cs2, Ds2, out2) ->
  Permutation (b_bars H0) (b_bars (nth 0 (ph_hom out1) empty_basis) ++ b_bars (nth 0 (ph_hom out2) empty_basis)).
Proof. exact union_zero. Qed.
Print Assumptions C78_degree_zero.

(** ... and in all degrees if the cloud is divided in one direction only or the intersections are acyclic. *)
Theorem C78_cover : forall as0 as1 as2 rnd0 rnd1 rnd2 l dim pc Dist Dist0 D1 D2 M m m1 m2 div ov p, sound_call as0 rnd0 dim pc Dist M m div ov p -> simple_cover dim pc Dist M m div ov p -> sorts as1 -> sorts as2 -> square D1 -> square D2 ->
  (forall u v, (u < v < length D1)%nat -> 0 <= dist D1 u v) -> (forall u v, (u < v < length D2)%nat -> 0 <= dist D2 u v) -> 0 < M -> symmetric Dist -> reordered l Dist Dist0 -> far_parts M Dist0 D1 D2 ->
  forall S P Hs Cs1 Ds1 out1 Cs2 Ds2 out2, create_MV_ss as0 rnd0 (fun x => x) dim pc Dist M m div ov p = Ok (S, P, Hs) ->
  local_homology as1 rnd1 D1 M m1 p = Ok (Cs1, Ds1, out1) -> local_homology as2 rnd2 D2 M m2 p = Ok (Cs2, Ds2, out2) ->
  exists H0 O, Hs = results H0 O /\ length O = (Z.to_nat m - 1)%nat /\
    forall d, (d < Z.to_nat m)%nat -> (d < Z.to_nat (Z.max 1 m1))%nat -> (d < Z.to_nat (Z.max 1 m2))%nat ->
    Permutation (bars_in H0 O d) (b_bars (nth d (ph_hom out1) empty_basis) ++ b_bars (nth d (ph_hom out2) empty_basis)).
Proof. exact union_cover. Qed.
Print Assumptions C78_cover.

(** ** The same for any number of parts *)
Theorem C78_parts : forall p M l Dist Dist0 Ds d bars bs, prime p -> symmetric Dist -> reordered l Dist Dist0 -> far_list M Dist0 Ds ->
  rips_barcode p Dist M d bars -> Forall2 (fun D b => rips_barcode p D M d b) Ds bs -> Permutation bars (concat bs).
Proof. exact union_list. Qed.
Print Assumptions C78_parts.

Theorem C78_parts_local : forall p M l Dist Dist0 Ds d bars bs, prime p -> 0 < M -> symmetric Dist -> reordered l Dist Dist0 -> far_list M Dist0 Ds ->
  computed_bars p M d Dist bars -> Forall2 (computed_bars p M d) Ds bs -> Permutation bars (concat bs).
Proof. exact union_list_local. Qed.
Print Assumptions C78_parts_local.

(** ** Checking the hypotheses by computation *)
Definition far_partsb (M : Z) (D D1 D2 : list (list Z)) : bool :=
  Nat.eqb (length D) (length D1 + length D2) &&
  forallb (fun u => forallb (fun v => dist D u v =? dist D1 u v) (seq 0 (length D1))) (seq 0 (length D1)) &&
  forallb (fun u => forallb (fun v => dist D (length D1 + u) (length D1 + v) =? dist D2 u v) (seq 0 (length D2))) (seq 0 (length D2)) &&
  forallb (fun u => forallb (fun v => M <=? dist D u (length D1 + v)) (seq 0 (length D2))) (seq 0 (length D1)).
Lemma far_parts_ok M D D1 D2 : far_partsb M D D1 D2 = true -> far_parts M D D1 D2.
Proof.
  intros H. apply andb_true_iff in H. destruct H as [H H4]. apply andb_true_iff in H. destruct H as [H H3]. apply andb_true_iff in H. destruct H as [H1 H2]. split.
  - apply Nat.eqb_eq. exact H1.
  - intros u v L. apply Z.eqb_eq. apply (check_pairs _ _ H2 u v); lia.
  - intros u v L. apply Z.eqb_eq. apply (check_pairs _ _ H3 u v); lia.
  - intros u v Hu Hv. apply Z.leb_le. rewrite forallb_forall in H4. specialize (H4 u ltac:(apply in_seq; lia)). rewrite forallb_forall in H4. apply H4, in_seq. lia.
Qed.

(** ** The two rectangles of [C75_box], 20 from each other *)
Definition apart : list (list Z) := [[0; 4; 8; 4; 20; 20; 20; 20]; [4; 0; 4; 8; 20; 20; 20; 20]; [8; 4; 0; 4; 20; 20; 20; 20]; [4; 8; 4; 0; 20; 20; 20; 20];
  [20; 20; 20; 20; 0; 5; 8; 4]; [20; 20; 20; 20; 5; 0; 4; 9]; [20; 20; 20; 20; 8; 4; 0; 4]; [20; 20; 20; 20; 4; 9; 4; 0]].
Example C78_boxes : far_parts 10 apart box box_long /\ degree_bars box 10 2 5 1 = Ok [(4, 8)] /\ degree_bars box_long 10 2 5 1 = Ok [(5, 8)] /\ degree_bars apart 10 2 5 1 = Ok [(4, 8); (5, 8)] /\
  degree_bars apart 10 2 5 0 = Ok [(0, 10); (0, 10); (0, 4); (0, 4); (0, 4); (0, 4); (0, 4); (0, 4)].
Proof. split; [apply far_parts_ok; reflexivity|]. repeat split; vm_compute; reflexivity. Qed.

(** ** Two squares whose points are listed by turns, divided into three parts *)
Definition squares : list (list Z) := [[0;0];[20;0];[4;0];[24;0];[4;4];[24;4];[0;4];[20;4]].
Definition one_square : list (list Z) := [[0;0];[4;0];[4;4];[0;4]].
Definition by_square : list nat := [0; 2; 4; 6; 1; 3; 5; 7]%nat.
Lemma squares_call : sound_call stable_argsort (fun x => x) 2 (map (map inject_Z) squares) (sq_dists 2 squares) 36 2 3 (7#1) 5 /\
  simple_cover 2 (map (map inject_Z) squares) (sq_dists 2 squares) 36 2 3 (7#1) 5.
Proof.
  split.
  - apply integer_sound; [apply call_ok; reflexivity|apply thick_ok; reflexivity].
  - left. exists 0%nat. apply long_ok; [lia|vm_compute; reflexivity].
Qed.
Example C78_squares : symmetric (sq_dists 2 squares) /\ reordered by_square (sq_dists 2 squares) (dist_of (sq_dists 2 squares) by_square) /\
  far_parts 36 (dist_of (sq_dists 2 squares) by_square) (sq_dists 2 one_square) (sq_dists 2 one_square) /\
  degree_bars (sq_dists 2 one_square) 36 2 5 1 = Ok [(16, 32)] /\ degree_bars (sq_dists 2 one_square) 36 2 5 0 = Ok [(0, 36); (0, 16); (0, 16); (0, 16)] /\
  bars_of (run 2 squares 36 2 3 (7#1) 5) = Ok [[(0, 36); (0, 36); (0, 16); (0, 16); (0, 16); (0, 16); (0, 16); (0, 16)]; [(16, 32); (16, 32)]].
Proof.
  split; [exact (proj1 (dissimilar_ok (sq_dists 2 squares) ltac:(vm_compute; reflexivity)))|]. split; [split; [reflexivity|]; split|].
  - apply NoDup_Permutation.
    + repeat constructor; cbn; intuition discriminate.
    + apply seq_NoDup.
    + intros x. unfold by_square. cbn. tauto.
  - intros u v H. apply dist_of_at; cbn in *; lia.
  - split; [apply far_parts_ok; vm_compute; reflexivity|]. repeat split; vm_compute; reflexivity.
Qed.

(** ** Three parts: a point, the rectangle and a pair of points, 20 from each other *)
Definition three_parts : list (list Z) := [[0; 20; 20; 20; 20; 20; 20]; [20; 0; 4; 8; 4; 20; 20]; [20; 4; 0; 4; 8; 20; 20]; [20; 8; 4; 0; 4; 20; 20]; [20; 4; 8; 4; 0; 20; 20];
  [20; 20; 20; 20; 20; 0; 3]; [20; 20; 20; 20; 20; 3; 0]].
Definition two_parts : list (list Z) := [[0; 4; 8; 4; 20; 20]; [4; 0; 4; 8; 20; 20]; [8; 4; 0; 4; 20; 20]; [4; 8; 4; 0; 20; 20]; [20; 20; 20; 20; 0; 3]; [20; 20; 20; 20; 3; 0]].
Example C78_three : far_list 10 three_parts [[[0]]; box; [[0; 3]; [3; 0]]] /\
  degree_bars [[0]] 10 2 5 0 = Ok [(0, 10)] /\ degree_bars box 10 2 5 0 = Ok [(0, 10); (0, 4); (0, 4); (0, 4)] /\ degree_bars [[0; 3]; [3; 0]] 10 2 5 0 = Ok [(0, 10); (0, 3)] /\
  degree_bars three_parts 10 2 5 0 = Ok [(0, 10); (0, 10); (0, 10); (0, 4); (0, 4); (0, 4); (0, 3)] /\ degree_bars three_parts 10 2 5 1 = Ok [(4, 8)].
Proof.
  split; [|repeat split; vm_compute; reflexivity].
  apply (far_more 10 three_parts [[0]] two_parts); [apply far_parts_ok; reflexivity|]. apply (far_more 10 two_parts box [[0; 3]; [3; 0]]); [apply far_parts_ok; reflexivity|]. apply far_one.
Qed.
