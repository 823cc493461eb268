(** * Properties C75 and C76: clouds near to each other, and samples *)
From Coq Require Import QArith Permutation Znumtheory.
From Verif Require Import Base Basis_model PH_model Simp_model SS_model Cover_model HP_model Sample_model Spec_Simp Simp_props Spec_PH Spec_Rips Spec_Bars Spec_Call Spec_MV Spec_Two Spec_Nerve
  MV_props MV_zero MV_two Spec_Symm Spec_Agree Agree_props Comp_props Spec_Stable Rips_stable Stable_props.
Local Open Scope Z_scope.

(** ** C75: if the points of two clouds can be paired so that distances change by at most [e], then bars change by at most [e] at both ends, as far as they can be counted. *)
Theorem C75_local : forall as1 as2 rnd1 rnd2 Dist Dist' max_r m1 m2 p e l l', sorts as1 -> sorts as2 -> square Dist -> square Dist' -> dissimilarity Dist -> dissimilarity Dist' ->
  (forall u v, (u < v < length Dist)%nat -> 0 <= dist Dist u v) -> (forall u v, (u < v < length Dist')%nat -> 0 <= dist Dist' u v) -> 0 < max_r -> prime p -> 0 <= e -> paired e max_r l l' Dist Dist' ->
  forall Cs Ds out Cs' Ds' out', local_homology as1 rnd1 Dist max_r m1 p = Ok (Cs, Ds, out) -> local_homology as2 rnd2 Dist' max_r m2 p = Ok (Cs', Ds', out') ->
  (forall d, (d < Z.to_nat (Z.max 1 m1))%nat -> (d < Z.to_nat (Z.max 1 m2))%nat -> near_bars e max_r (b_bars (nth d (ph_hom out) empty_basis)) (b_bars (nth d (ph_hom out') empty_basis))) /\
  near_deaths e max_r (b_bars (nth 0 (ph_hom out) empty_basis)) (b_bars (nth 0 (ph_hom out') empty_basis)).
Proof. exact stable_local. Qed.
Print Assumptions C75_local.

(** The same for [create_MV_ss], in degree 0 ... *)
Theorem C75_degree_zero : forall as1 as2 rnd1 rnd2 dim1 dim2 pc1 pc2 Dist Dist' M m1 m2 div1 div2 ov1 ov2 p e l l' S P H0 Hs S' P' H0' Hs',
  sound_call as1 rnd1 dim1 pc1 Dist M m1 div1 ov1 p -> sound_call as2 rnd2 dim2 pc2 Dist' M m2 div2 ov2 p -> dissimilarity Dist -> dissimilarity Dist' -> 0 <= e -> paired e M l l' Dist Dist' ->
  create_MV_ss as1 rnd1 (fun x => x) dim1 pc1 Dist M m1 div1 ov1 p = Ok (S, P, H0 :: Hs) ->
  create_MV_ss as2 rnd2 (fun x => x) dim2 pc2 Dist' M m2 div2 ov2 p = Ok (S', P', H0' :: Hs') ->
  near_bars e M (b_bars H0) (b_bars H0') /\ near_deaths e M (b_bars H0) (b_bars H0').
Proof. exact stable_zero. Qed.
Print Assumptions C75_degree_zero.

(** ... and in all degrees if the clouds are divided in one direction only or the intersections are acyclic. *)
Theorem C75_cover : forall as1 as2 rnd1 rnd2 dim1 dim2 pc1 pc2 Dist Dist' M m1 m2 div1 div2 ov1 ov2 p e l l' S P Hs S' P' Hs',
  sound_call as1 rnd1 dim1 pc1 Dist M m1 div1 ov1 p -> simple_cover dim1 pc1 Dist M m1 div1 ov1 p ->
  sound_call as2 rnd2 dim2 pc2 Dist' M m2 div2 ov2 p -> simple_cover dim2 pc2 Dist' M m2 div2 ov2 p -> dissimilarity Dist -> dissimilarity Dist' -> 0 <= e -> paired e M l l' Dist Dist' ->
  create_MV_ss as1 rnd1 (fun x => x) dim1 pc1 Dist M m1 div1 ov1 p = Ok (S, P, Hs) ->
  create_MV_ss as2 rnd2 (fun x => x) dim2 pc2 Dist' M m2 div2 ov2 p = Ok (S', P', Hs') ->
  exists H0 O H0' O', Hs = results H0 O /\ length O = (Z.to_nat m1 - 1)%nat /\ Hs' = results H0' O' /\ length O' = (Z.to_nat m2 - 1)%nat /\
    forall d, (d < Z.to_nat m1)%nat -> (d < Z.to_nat m2)%nat -> near_bars e M (bars_in H0 O d) (bars_in H0' O' d).
Proof. exact stable_cover. Qed.
Print Assumptions C75_cover.

(** The same for the barcodes themselves. *)
Theorem C75_barcode : forall p e M l l' Dist Dist' d bars bars', prime p -> 0 <= e -> dissimilarity Dist -> dissimilarity Dist' -> paired e M l l' Dist Dist' ->
  rips_barcode p Dist M d bars -> rips_barcode p Dist' M d bars' -> near_bars e M bars bars'.
Proof. exact paired_near. Qed.
Print Assumptions C75_barcode.

(** ** C76: if every point is within [e] of a sample, the bars of the sample are those of the cloud up to [2 e]. *)
Theorem C76_sample : forall as1 as2 rnd1 rnd2 Dist Dist' max_r m1 m2 p e idx, sorts as1 -> sorts as2 -> square Dist -> square Dist' -> metric Dist -> (0 < length Dist)%nat ->
  0 < max_r -> prime p -> sampled idx Dist Dist' -> covering e idx Dist ->
  forall Cs Ds out Cs' Ds' out', local_homology as1 rnd1 Dist max_r m1 p = Ok (Cs, Ds, out) -> local_homology as2 rnd2 Dist' max_r m2 p = Ok (Cs', Ds', out') ->
  (forall d, (d < Z.to_nat (Z.max 1 m1))%nat -> (d < Z.to_nat (Z.max 1 m2))%nat -> near_bars (2 * e) max_r (b_bars (nth d (ph_hom out) empty_basis)) (b_bars (nth d (ph_hom out') empty_basis))) /\
  near_deaths (2 * e) max_r (b_bars (nth 0 (ph_hom out) empty_basis)) (b_bars (nth 0 (ph_hom out') empty_basis)).
Proof. exact stable_sample. Qed.
Print Assumptions C76_sample.

(** For the points returned by [take_sample], [e] is at most the distance of the last one to one of the others. *)
Theorem C76_take_sample : forall (P : Type) (pts : list P) Dist k draw (d0 : P), metric Dist -> square Dist -> length Dist = length pts -> 2 <= k -> (1 < length pts)%nat -> 0 <= draw < Z.of_nat (length pts) ->
  exists idx, take_sample pts (Mat (length pts) Dist) k draw = Ok (map (fun j => nth j pts d0) idx) /\ Z.of_nat (length idx) = Z.min (Z.of_nat (length pts)) k /\ NoDup idx /\ (forall i, In i idx -> (i < length pts)%nat) /\
    forall t e, In t (firstn (length idx - 1) idx) -> dist Dist (nth (length idx - 1) idx 0%nat) t <= e ->
    forall as1 as2 rnd1 rnd2 Dist' max_r m1 m2 p, sorts as1 -> sorts as2 -> square Dist' -> sampled idx Dist Dist' -> 0 < max_r -> prime p ->
    forall Cs Ds out Cs' Ds' out', local_homology as1 rnd1 Dist max_r m1 p = Ok (Cs, Ds, out) -> local_homology as2 rnd2 Dist' max_r m2 p = Ok (Cs', Ds', out') ->
    (forall d, (d < Z.to_nat (Z.max 1 m1))%nat -> (d < Z.to_nat (Z.max 1 m2))%nat -> near_bars (2 * e) max_r (b_bars (nth d (ph_hom out) empty_basis)) (b_bars (nth d (ph_hom out') empty_basis))) /\
    near_deaths (2 * e) max_r (b_bars (nth 0 (ph_hom out) empty_basis)) (b_bars (nth 0 (ph_hom out') empty_basis)).
Proof. exact stable_take_sample. Qed.
Print Assumptions C76_take_sample.

(** ** Checking the hypotheses by computation *)
Lemma check_pairs n (f : nat -> nat -> bool) : forallb (fun u => forallb (f u) (seq 0 n)) (seq 0 n) = true -> forall u v, (u < n)%nat -> (v < n)%nat -> f u v = true.
Proof. intros H u v Hu Hv. rewrite forallb_forall in H. specialize (H u ltac:(apply in_seq; lia)). rewrite forallb_forall in H. apply H, in_seq. lia. Qed.
Definition dissimilarb (D : list (list Z)) : bool :=
  forallb (fun u => forallb (fun v => (dist D u v =? dist D v u) && (if Nat.eqb u v then dist D u v =? 0 else true)) (seq 0 (length D))) (seq 0 (length D)).
Lemma dissimilar_ok D : dissimilarb D = true -> dissimilarity D.
Proof.
  intros H. pose proof (check_pairs _ _ H) as C. split.
  - intros u v Hu Hv. specialize (C u v Hu Hv). apply andb_true_iff in C. apply Z.eqb_eq, C.
  - intros u Hu. specialize (C u u Hu Hu). cbv beta in C. rewrite Nat.eqb_refl in C. apply andb_true_iff in C. apply Z.eqb_eq, C.
Qed.
Definition pairedb (e M : Z) (D D' : list (list Z)) : bool :=
  Nat.eqb (length D') (length D) && forallb (fun u => forallb (fun v => Z.abs (Z.min M (dist D u v) - Z.min M (dist D' u v)) <=? e) (seq 0 (length D))) (seq 0 (length D)).
Lemma paired_ok e M D D' : pairedb e M D D' = true -> paired e M (seq 0 (length D)) (seq 0 (length D)) D D'.
Proof.
  intros H. apply andb_true_iff in H. destruct H as [L H]. apply Nat.eqb_eq in L. pose proof (check_pairs _ _ H) as C. split.
  - reflexivity.
  - intros v. rewrite in_seq. lia.
  - intros v. rewrite in_seq. lia.
  - intros i j Hij. rewrite seq_length in Hij. rewrite !seq_nth by lia. apply Z.leb_le. apply (C i j); lia.
Qed.

(** ** A rectangle with a loop from 4 to 8, one side made longer *)
Definition box : list (list Z) := [[0; 4; 8; 4]; [4; 0; 4; 8]; [8; 4; 0; 4]; [4; 8; 4; 0]].
Definition box_long : list (list Z) := [[0; 5; 8; 4]; [5; 0; 4; 9]; [8; 4; 0; 4]; [4; 9; 4; 0]].
Example C75_box : dissimilarity box /\ dissimilarity box_long /\ paired 1 10 (seq 0 4) (seq 0 4) box box_long /\
  degree_bars box 10 2 5 1 = Ok [(4, 8)] /\ degree_bars box_long 10 2 5 1 = Ok [(5, 8)] /\
  degree_bars box 10 2 5 0 = Ok [(0, 10); (0, 4); (0, 4); (0, 4)] /\ degree_bars box_long 10 2 5 0 = Ok [(0, 10); (0, 4); (0, 4); (0, 4)].
Proof. split; [apply dissimilar_ok; reflexivity|]. split; [apply dissimilar_ok; reflexivity|]. split; [apply (paired_ok 1 10 box box_long); reflexivity|]. repeat split; vm_compute; reflexivity. Qed.

(** ** A frame of sixteen points, divided into three parts, and the frame with one point moved: the loop lives from 16 and from 25 *)
Definition ring : list (list Z) := [[0;0];[4;0];[8;0];[12;0];[16;0];[20;0];[24;0];[24;4];[24;8];[20;8];[16;8];[12;8];[8;8];[4;8];[0;8];[0;4]].
Definition ring_moved : list (list Z) := [[0;0];[4;0];[8;0];[11;0];[16;0];[20;0];[24;0];[24;4];[24;8];[20;8];[16;8];[12;8];[8;8];[4;8];[0;8];[0;4]].
Lemma ring_call pc : pc = ring \/ pc = ring_moved -> sound_call stable_argsort (fun x => x) 2 (map (map inject_Z) pc) (sq_dists 2 pc) 36 2 3 (7#1) 5 /\
  simple_cover 2 (map (map inject_Z) pc) (sq_dists 2 pc) 36 2 3 (7#1) 5.
Proof.
  intros H. split.
  - destruct H as [-> | ->]; (apply integer_sound; [apply call_ok; reflexivity|apply thick_ok; reflexivity]).
  - left. exists 0%nat. destruct H as [-> | ->]; (apply long_ok; [lia|vm_compute; reflexivity]).
Qed.
Example C75_ring : dissimilarity (sq_dists 2 ring) /\ dissimilarity (sq_dists 2 ring_moved) /\ paired 9 36 (seq 0 16) (seq 0 16) (sq_dists 2 ring) (sq_dists 2 ring_moved) /\
  bars_of (run 2 ring 36 2 3 (7#1) 5) = Ok [(0, 36) :: repeat (0, 16) 15; [(16, 36)]] /\
  bars_of (run 2 ring_moved 36 2 3 (7#1) 5) = Ok [(0, 36) :: repeat (0, 16) 14 ++ [(0, 9)]; [(25, 36)]].
Proof.
  split; [apply dissimilar_ok; vm_compute; reflexivity|]. split; [apply dissimilar_ok; vm_compute; reflexivity|]. split; [apply (paired_ok 9 36 (sq_dists 2 ring) (sq_dists 2 ring_moved)); vm_compute; reflexivity|].
  split; vm_compute; reflexivity.
Qed.

(** ** The points 0, 1, 10, 11 of a line, and two of them *)
Definition four_line : list (list Z) := [[0; 1; 10; 11]; [1; 0; 9; 10]; [10; 9; 0; 1]; [11; 10; 1; 0]].
Definition two_line : list (list Z) := [[0; 11]; [11; 0]].
Lemma metric_line : metric four_line.
Proof.
  split; [apply dissimilar_ok; reflexivity|]. intros u v w Hu Hv Hw. cbn in Hu, Hv, Hw. apply Z.leb_le.
  destruct u as [|[|[|[|u]]]]; try lia; destruct v as [|[|[|[|v]]]]; try lia; destruct w as [|[|[|[|w]]]]; try lia; reflexivity.
Qed.
Example C76_line : take_sample [10; 11; 12; 13] (Mat 4 four_line) 2 1 = Ok [10; 13] /\ sampled [0; 3]%nat four_line two_line /\ covering 1 [0; 3]%nat four_line /\
  degree_bars four_line 20 1 5 0 = Ok [(0, 20); (0, 9); (0, 1); (0, 1)] /\ degree_bars two_line 20 1 5 0 = Ok [(0, 20); (0, 11)].
Proof.
  split; [reflexivity|]. split.
  { split; [reflexivity|]. split; [intros v [<-|[<-|[]]]; cbn; lia|]. intros i j Hi Hj. cbn in Hi, Hj. destruct i as [|[|i]]; try lia; destruct j as [|[|j]]; try lia; reflexivity. }
  split; [|split; vm_compute; reflexivity]. intros v Hv. cbn in Hv. destruct v as [|[|[|[|v]]]]; try lia; [exists 0%nat|exists 0%nat|exists 3%nat|exists 3%nat]; (split; [cbn; tauto|apply Z.leb_le; reflexivity]).
Qed.
