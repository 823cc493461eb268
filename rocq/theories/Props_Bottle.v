(** * Property C77: bars of clouds near to each other can be matched *)
From Coq Require Import QArith Permutation Znumtheory.
From Verif Require Import Base Basis_model PH_model Simp_model SS_model Cover_model HP_model Sample_model Spec_Simp Simp_props Spec_PH Spec_Rips Spec_Bars Spec_Call Spec_MV Spec_Two
  MV_props MV_two Spec_Symm Spec_Agree Comp_props Spec_Stable Stable_rips Props_Stable.
Local Open Scope Z_scope.

(** ** C77: if the points of two clouds can be paired so that distances change by at most [e], then the bars can be matched one to one so that partners differ by at most [e] at both ends; bars without a partner are not longer than [2 e]. *)
Theorem C77_barcode : forall p e M l l' Dist Dist' d bars bars', prime p -> 0 <= e -> dissimilarity Dist -> dissimilarity Dist' -> paired e M l l' Dist Dist' ->
  rips_barcode p Dist M d bars -> rips_barcode p Dist' M d bars' -> matched_bars e bars bars'.
Proof. exact paired_matched. Qed.
Print Assumptions C77_barcode.

(** The bars computed by [persistent_homology] for the two clouds. *)
Theorem C77_local : forall as1 as2 rnd1 rnd2 Dist Dist' max_r m1 m2 p e l l', sorts as1 -> sorts as2 -> square Dist -> square Dist' -> dissimilarity Dist -> dissimilarity Dist' ->
  (forall u v, (u < v < length Dist)%nat -> 0 <= dist Dist u v) -> (forall u v, (u < v < length Dist')%nat -> 0 <= dist Dist' u v) -> 0 < max_r -> prime p -> 0 <= e -> paired e max_r l l' Dist Dist' ->
  forall Cs Ds out Cs' Ds' out', local_homology as1 rnd1 Dist max_r m1 p = Ok (Cs, Ds, out) -> local_homology as2 rnd2 Dist' max_r m2 p = Ok (Cs', Ds', out') ->
  forall d, (d < Z.to_nat (Z.max 1 m1))%nat -> (d < Z.to_nat (Z.max 1 m2))%nat -> matched_bars e (b_bars (nth d (ph_hom out) empty_basis)) (b_bars (nth d (ph_hom out') empty_basis)).
Proof. exact match_local. Qed.
Print Assumptions C77_local.

(** The bars returned by [create_MV_ss], in degree 0 ... *)
Theorem C77_degree_zero : forall as1 as2 rnd1 rnd2 dim1 dim2 pc1 pc2 Dist Dist' M m1 m2 div1 div2 ov1 ov2 p e l l' S P H0 Hs S' P' H0' Hs',
  sound_call as1 rnd1 dim1 pc1 Dist M m1 div1 ov1 p -> sound_call as2 rnd2 dim2 pc2 Dist' M m2 div2 ov2 p -> dissimilarity Dist -> dissimilarity Dist' -> 0 <= e -> paired e M l l' Dist Dist' ->
  create_MV_ss as1 rnd1 (fun x => x) dim1 pc1 Dist M m1 div1 ov1 p = Ok (S, P, H0 :: Hs) ->
  create_MV_ss as2 rnd2 (fun x => x) dim2 pc2 Dist' M m2 div2 ov2 p = Ok (S', P', H0' :: Hs') ->
  matched_bars e (b_bars H0) (b_bars H0').
Proof. exact match_zero. Qed.
Print Assumptions C77_degree_zero.

(** ... and in all degrees if the clouds are divided in one direction only or the intersections are acyclic. *)
Theorem C77_cover : forall as1 as2 rnd1 rnd2 dim1 dim2 pc1 pc2 Dist Dist' M m1 m2 div1 div2 ov1 ov2 p e l l' S P Hs S' P' Hs',
  sound_call as1 rnd1 dim1 pc1 Dist M m1 div1 ov1 p -> simple_cover dim1 pc1 Dist M m1 div1 ov1 p ->
  sound_call as2 rnd2 dim2 pc2 Dist' M m2 div2 ov2 p -> simple_cover dim2 pc2 Dist' M m2 div2 ov2 p -> dissimilarity Dist -> dissimilarity Dist' -> 0 <= e -> paired e M l l' Dist Dist' ->
  create_MV_ss as1 rnd1 (fun x => x) dim1 pc1 Dist M m1 div1 ov1 p = Ok (S, P, Hs) ->
  create_MV_ss as2 rnd2 (fun x => x) dim2 pc2 Dist' M m2 div2 ov2 p = Ok (S', P', Hs') ->
  exists H0 O H0' O', Hs = results H0 O /\ length O = (Z.to_nat m1 - 1)%nat /\ Hs' = results H0' O' /\ length O' = (Z.to_nat m2 - 1)%nat /\
    forall d, (d < Z.to_nat m1)%nat -> (d < Z.to_nat m2)%nat -> matched_bars e (bars_in H0 O d) (bars_in H0' O' d).
Proof. exact match_cover. Qed.
Print Assumptions C77_cover.

(** The bars of a cloud and of a sample which is within [e] of every point. *)
Theorem C77_sample : forall as1 as2 rnd1 rnd2 Dist Dist' max_r m1 m2 p e idx, sorts as1 -> sorts as2 -> square Dist -> square Dist' -> metric Dist -> (0 < length Dist)%nat ->
  0 < max_r -> prime p -> sampled idx Dist Dist' -> covering e idx Dist ->
  forall Cs Ds out Cs' Ds' out', local_homology as1 rnd1 Dist max_r m1 p = Ok (Cs, Ds, out) -> local_homology as2 rnd2 Dist' max_r m2 p = Ok (Cs', Ds', out') ->
  forall d, (d < Z.to_nat (Z.max 1 m1))%nat -> (d < Z.to_nat (Z.max 1 m2))%nat -> matched_bars (2 * e) (b_bars (nth d (ph_hom out) empty_basis)) (b_bars (nth d (ph_hom out') empty_basis)).
Proof. exact match_sample. Qed.
Print Assumptions C77_sample.

(** For the points returned by [take_sample], [e] is at most the distance of the last one to one of the others. *)
Theorem C77_take_sample : forall (P : Type) (pts : list P) Dist k draw (d0 : P), metric Dist -> square Dist -> length Dist = length pts -> 2 <= k -> (1 < length pts)%nat -> 0 <= draw < Z.of_nat (length pts) ->
  exists idx, take_sample pts (Mat (length pts) Dist) k draw = Ok (map (fun j => nth j pts d0) idx) /\ Z.of_nat (length idx) = Z.min (Z.of_nat (length pts)) k /\ NoDup idx /\ (forall i, In i idx -> (i < length pts)%nat) /\
    forall t e, In t (firstn (length idx - 1) idx) -> dist Dist (nth (length idx - 1) idx 0%nat) t <= e ->
    forall as1 as2 rnd1 rnd2 Dist' max_r m1 m2 p, sorts as1 -> sorts as2 -> square Dist' -> sampled idx Dist Dist' -> 0 < max_r -> prime p ->
    forall Cs Ds out Cs' Ds' out', local_homology as1 rnd1 Dist max_r m1 p = Ok (Cs, Ds, out) -> local_homology as2 rnd2 Dist' max_r m2 p = Ok (Cs', Ds', out') ->
    forall d, (d < Z.to_nat (Z.max 1 m1))%nat -> (d < Z.to_nat (Z.max 1 m2))%nat -> matched_bars (2 * e) (b_bars (nth d (ph_hom out) empty_basis)) (b_bars (nth d (ph_hom out') empty_basis)).
Proof. exact match_take_sample. Qed.
Print Assumptions C77_take_sample.

(** ** The rectangle of [C75_box], with one side made longer by 1: the loops match up to 1, and not up to 0 *)
Example C77_box : paired 1 10 (seq 0 4) (seq 0 4) box box_long /\ degree_bars box 10 2 5 1 = Ok [(4, 8)] /\ degree_bars box_long 10 2 5 1 = Ok [(5, 8)] /\
  matched_bars 1 [(4, 8)] [(5, 8)] /\ ~ matched_bars 0 [(4, 8)] [(5, 8)].
Proof.
  split; [apply (paired_ok 1 10 box box_long); reflexivity|]. split; [vm_compute; reflexivity|]. split; [vm_compute; reflexivity|]. split.
  - exists [((4, 8), (5, 8))], [], []. split; [reflexivity|]. split; [reflexivity|]. split; [intros x y [E|[]]; injection E as <- <-; cbn; lia|intros x [[]|[]]].
  - intros (l & u & u' & P & P' & H & U). assert (In (4, 8) (map fst l ++ u)) as I by (apply (Permutation_in _ P); left; reflexivity). apply in_app_or in I. destruct I as [I|I].
    + apply in_map_iff in I. destruct I as ((x & y) & E & I). cbn in E. subst x. specialize (H _ _ I). assert (Y : In y [(5, 8)]) by (apply (Permutation_in _ (Permutation_sym P')), in_or_app; left; apply (in_map snd) in I; exact I).
      destruct Y as [<-|[]]. cbn in H. lia.
    + specialize (U _ (or_introl I)). cbn in U. lia.
Qed.

(** ** The frames of [C75_ring], divided into three parts: the hypotheses of [C77_cover] hold with 9, the loops live from 16 and from 25 *)
Example C77_ring : paired 9 36 (seq 0 16) (seq 0 16) (sq_dists 2 ring) (sq_dists 2 ring_moved) /\
  bars_of (run 2 ring 36 2 3 (7#1) 5) = Ok [(0, 36) :: repeat (0, 16) 15; [(16, 36)]] /\
  bars_of (run 2 ring_moved 36 2 3 (7#1) 5) = Ok [(0, 36) :: repeat (0, 16) 14 ++ [(0, 9)]; [(25, 36)]] /\ matched_bars 9 [(16, 36)] [(25, 36)].
Proof.
  destruct C75_ring as (_ & _ & A & B & C). split; [exact A|]. split; [exact B|]. split; [exact C|].
  exists [((16, 36), (25, 36))], [], []. split; [reflexivity|]. split; [reflexivity|]. split; [intros x y [E|[]]; injection E as <- <-; cbn; lia|intros x [[]|[]]].
Qed.

(** ** The points 0, 1, 10, 11 of a line and the sample of [C76_line]: two bars have partners, two are not longer than 4 *)
Example C77_line : sampled [0; 3]%nat four_line two_line /\ covering 1 [0; 3]%nat four_line /\
  degree_bars four_line 20 1 5 0 = Ok [(0, 20); (0, 9); (0, 1); (0, 1)] /\ degree_bars two_line 20 1 5 0 = Ok [(0, 20); (0, 11)] /\
  matched_bars (2 * 1) [(0, 20); (0, 9); (0, 1); (0, 1)] [(0, 20); (0, 11)].
Proof.
  destruct C76_line as (_ & A & B & C & D). split; [exact A|]. split; [exact B|]. split; [exact C|]. split; [exact D|].
  exists [((0, 20), (0, 20)); ((0, 9), (0, 11))], [(0, 1); (0, 1)], []. split; [reflexivity|]. split; [reflexivity|]. split.
  - intros x y [E|[E|[]]]; injection E as <- <-; cbn; lia.
  - intros x [[<-|[<-|[]]]|[]]; cbn; lia.
Qed.
