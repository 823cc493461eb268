(** * Results of different calls agree *)
From Coq Require Import QArith Qabs Lqa Permutation Znumtheory.
From Verif Require Import Base ListX SortX Basis_model PH_model Simp_model SS_model Cover_model HP_model Spec_Simp Simp_props Spec_PH Spec_Rips Spec_Bars Spec_SS Spec_E2 Spec_Cover Spec_Call Spec_MV Spec_Two Spec_Nerve
  Bars Rips_bars Spec_Symm Rips_scale Rips_order Rips_dup MV_zero MV_two Nerve_result Spec_Agree MV_props.
Local Open Scope Z_scope.

Lemma rips_unique p Dist M d b1 b2 : prime p -> rips_barcode p Dist M d b1 -> rips_barcode p Dist M d b2 -> Permutation b1 b2.
Proof. intros Hp H1 H2. refine (barcode_unique p Hp _ _ M b1 b2 _ H1 H2). intros r _. apply s_bounds_sub. destruct Hp; lia. Qed.

Lemma change_barcode p Dist Dist' M M' t d bars : prime p -> (forall u v, (u < v < length Dist)%nat -> 0 <= dist Dist u v) -> 0 < M ->
  change Dist Dist' M M' t -> rips_barcode p Dist M d bars -> rips_barcode p Dist' M' d (t bars).
Proof.
  intros Hp HN HM C HB. destruct C as [ -> -> | f Hf HD -> | -> HL | l Hs HR -> | l Hs H0 HR -> ].
  - exact HB.
  - apply (rips_scale p f Dist Dist' M d bars Hp Hf HD HN ltac:(lia) HB).
  - apply (barcode_cut p _ _ M M' bars HL HB).
  - exact (rips_order p l Dist Dist' M d bars Hp Hs HR HB).
  - exact (rips_repeat p l Dist Dist' M d bars Hp Hs H0 HR HB).
Qed.

Section Calls.
Variables (argsort : list Z -> list nat) (rnd : Z -> Z) (dim : nat) (pc : list point) (Dist : list (list Z)) (max_r max_dim max_div : Z) (overlap : Q) (p : Z).
Hypothesis C : sound_call argsort rnd dim pc Dist max_r max_dim max_div overlap p.
Variables (S : ss) (P : pages) (Hs : list basis).
Hypothesis E : create_MV_ss argsort rnd (fun x => x) dim pc Dist max_r max_dim max_div overlap p = Ok (S, P, Hs).

Lemma sound_zero : exists H0 Hs', Hs = H0 :: Hs' /\ rips_barcode p Dist max_r 0 (b_bars H0).
Proof. destruct C as [C1 C2 C3 C4 C5]. exact (create_zero_aux argsort rnd dim pc Dist max_r max_dim max_div overlap p S P Hs C1 C2 C3 C4 C5 E). Qed.

Lemma sound_simple : simple_cover dim pc Dist max_r max_dim max_div overlap p ->
  exists H0 O, Hs = results H0 O /\ length O = (Z.to_nat max_dim - 1)%nat /\ forall d, (d < Z.to_nat max_dim)%nat -> rips_barcode p Dist max_r d (bars_in H0 O d).
Proof.
  destruct C as [C1 C2 C3 C4 C5]. intros [[e He]|[Hw Ha]].
  - exact (create_two argsort rnd dim pc Dist max_r max_dim max_div overlap p e S P Hs C1 C3 C4 He C5 E).
  - exact (create_nerve_result argsort rnd dim pc Dist max_r max_dim max_div overlap p S P Hs C1 C2 C3 C4 Hw C5 Ha E).
Qed.
End Calls.

Theorem agree_zero : forall as1 as2 rnd1 rnd2 dim1 dim2 pc1 pc2 Dist Dist' M M' m1 m2 div1 div2 ov1 ov2 p t S P H0 Hs S' P' H0' Hs',
  sound_call as1 rnd1 dim1 pc1 Dist M m1 div1 ov1 p -> sound_call as2 rnd2 dim2 pc2 Dist' M' m2 div2 ov2 p -> change Dist Dist' M M' t ->
  create_MV_ss as1 rnd1 (fun x => x) dim1 pc1 Dist M m1 div1 ov1 p = Ok (S, P, H0 :: Hs) ->
  create_MV_ss as2 rnd2 (fun x => x) dim2 pc2 Dist' M' m2 div2 ov2 p = Ok (S', P', H0' :: Hs') ->
  Permutation (b_bars H0') (t (b_bars H0)).
Proof.
  intros until Hs'. intros C1 C2 Ch E1 E2. pose proof (cc_prime _ _ _ _ _ _ _ _ _ (sc_cloud _ _ _ _ _ _ _ _ _ _ C1)) as Hp.
  destruct (sound_zero _ _ _ _ _ _ _ _ _ _ C1 _ _ _ E1) as (X & X' & EX & B1). injection EX as <- <-.
  destruct (sound_zero _ _ _ _ _ _ _ _ _ _ C2 _ _ _ E2) as (Y & Y' & EY & B2). injection EY as <- <-.
  refine (rips_unique p Dist' M' 0 _ _ Hp B2 (change_barcode p Dist Dist' M M' t 0 _ Hp _ _ Ch B1)).
  - exact (cc_nonneg _ _ _ _ _ _ _ _ _ (sc_cloud _ _ _ _ _ _ _ _ _ _ C1)).
  - exact (cc_max_r _ _ _ _ _ _ _ _ _ (sc_cloud _ _ _ _ _ _ _ _ _ _ C1)).
Qed.

Theorem agree_all : forall as1 as2 rnd1 rnd2 dim1 dim2 pc1 pc2 Dist Dist' M M' m1 m2 div1 div2 ov1 ov2 p t S P Hs S' P' Hs',
  sound_call as1 rnd1 dim1 pc1 Dist M m1 div1 ov1 p -> simple_cover dim1 pc1 Dist M m1 div1 ov1 p ->
  sound_call as2 rnd2 dim2 pc2 Dist' M' m2 div2 ov2 p -> simple_cover dim2 pc2 Dist' M' m2 div2 ov2 p -> change Dist Dist' M M' t ->
  create_MV_ss as1 rnd1 (fun x => x) dim1 pc1 Dist M m1 div1 ov1 p = Ok (S, P, Hs) ->
  create_MV_ss as2 rnd2 (fun x => x) dim2 pc2 Dist' M' m2 div2 ov2 p = Ok (S', P', Hs') ->
  exists H0 O H0' O', Hs = results H0 O /\ length O = (Z.to_nat m1 - 1)%nat /\ Hs' = results H0' O' /\ length O' = (Z.to_nat m2 - 1)%nat /\
    forall d, (d < Z.to_nat m1)%nat -> (d < Z.to_nat m2)%nat -> Permutation (bars_in H0' O' d) (t (bars_in H0 O d)).
Proof.
  intros until Hs'. intros C1 D1 C2 D2 Ch E1 E2. pose proof (cc_prime _ _ _ _ _ _ _ _ _ (sc_cloud _ _ _ _ _ _ _ _ _ _ C1)) as Hp.
  destruct (sound_simple _ _ _ _ _ _ _ _ _ _ C1 _ _ _ E1 D1) as (H0 & O & -> & L1 & B1).
  destruct (sound_simple _ _ _ _ _ _ _ _ _ _ C2 _ _ _ E2 D2) as (H0' & O' & -> & L2 & B2).
  exists H0, O, H0', O'. repeat (split; [assumption || reflexivity|]). intros d Hd1 Hd2.
  refine (rips_unique p Dist' M' d _ _ Hp (B2 d Hd2) (change_barcode p Dist Dist' M M' t d _ Hp _ _ Ch (B1 d Hd1))).
  - exact (cc_nonneg _ _ _ _ _ _ _ _ _ (sc_cloud _ _ _ _ _ _ _ _ _ _ C1)).
  - exact (cc_max_r _ _ _ _ _ _ _ _ _ (sc_cloud _ _ _ _ _ _ _ _ _ _ C1)).
Qed.

(** The local pipeline on the whole cloud. *)
Theorem agree_local_zero : forall as1 as2 rnd1 rnd2 dim pc Dist M m1 m2 div ov p S P H0 Hs Cs Ds out, sorts as2 ->
  sound_call as1 rnd1 dim pc Dist M m1 div ov p ->
  create_MV_ss as1 rnd1 (fun x => x) dim pc Dist M m1 div ov p = Ok (S, P, H0 :: Hs) -> local_homology as2 rnd2 Dist M m2 p = Ok (Cs, Ds, out) ->
  Permutation (b_bars H0) (b_bars (nth 0 (ph_hom out) empty_basis)).
Proof.
  intros until out. intros S2 C1 E1 E2. destruct (sound_zero _ _ _ _ _ _ _ _ _ _ C1 _ _ _ E1) as (X & X' & EX & B1). injection EX as <- <-.
  destruct (sc_cloud _ _ _ _ _ _ _ _ _ _ C1) as [_ Q1 N1 M1 _ _ Hp _ _ _ _].
  exact (C26_barcode_unique_aux as2 S2 rnd2 Dist M m2 p Q1 N1 M1 Hp Cs Ds out E2 0%nat (b_bars H0) ltac:(lia) B1).
Qed.

Theorem agree_local : forall as1 as2 rnd1 rnd2 dim pc Dist M m1 m2 div ov p S P Hs Cs Ds out, sorts as2 ->
  sound_call as1 rnd1 dim pc Dist M m1 div ov p -> simple_cover dim pc Dist M m1 div ov p ->
  create_MV_ss as1 rnd1 (fun x => x) dim pc Dist M m1 div ov p = Ok (S, P, Hs) -> local_homology as2 rnd2 Dist M m2 p = Ok (Cs, Ds, out) ->
  exists H0 O, Hs = results H0 O /\ length O = (Z.to_nat m1 - 1)%nat /\
    forall d, (d < Z.to_nat m1)%nat -> (d < Z.to_nat (Z.max 1 m2))%nat -> Permutation (bars_in H0 O d) (b_bars (nth d (ph_hom out) empty_basis)).
Proof.
  intros until out. intros S2 C1 D1 E1 E2. destruct (sound_simple _ _ _ _ _ _ _ _ _ _ C1 _ _ _ E1 D1) as (H0 & O & -> & L1 & B1).
  exists H0, O. split; [reflexivity|]. split; [exact L1|]. intros d Hd1 Hd2.
  destruct (sc_cloud _ _ _ _ _ _ _ _ _ _ C1) as [_ Q1 N1 M1 _ _ Hp _ _ _ _].
  exact (C26_barcode_unique_aux as2 S2 rnd2 Dist M m2 p Q1 N1 M1 Hp Cs Ds out E2 d _ Hd2 (B1 d Hd1)).
Qed.

(** ** Clouds with integer coordinates *)
Lemma integer_sound dim pc max_r max_dim max_div overlap p : mv_call dim pc max_r max_dim max_div overlap p -> thick dim (map (map inject_Z) pc) ->
  sound_call stable_argsort (fun x => x) dim (map (map inject_Z) pc) (sq_dists dim pc) max_r max_dim max_div overlap p.
Proof.
  intros HM Ht. pose proof HM as []. assert (Hsp : spread dim (map (map inject_Z) pc)) by (destruct (Ht 0%nat call_dim) as (a & b & Ha & Hb & H); exists 0%nat, a, b; auto).
  destruct call_overlap as [Ho1 Ho2]. constructor; [exact (mv_call_cloud _ _ _ _ _ _ _ HM Hsp)|exact call_dim|exact Ht|lra|].
  intros u v e Huv Hdist He. rewrite map_length in Huv. rewrite sq_dists_nth in Hdist by lia.
  assert (X : forall k, nth k (map (map inject_Z) pc) [] = map inject_Z (nth k pc [])) by (intros k; change (@nil Q) with (map inject_Z []); apply map_nth).
  rewrite !X. assert (Y : forall a, nth e (map inject_Z a) 0%Q = inject_Z (nth e a 0)) by (intros a; change 0%Q with (inject_Z 0); apply map_nth). rewrite !Y.
  setoid_replace (inject_Z (nth e (nth u pc []) 0%Z) - inject_Z (nth e (nth v pc []) 0%Z))%Q with (inject_Z (nth e (nth u pc []) 0 - nth e (nth v pc []) 0)%Z).
  2:{ unfold Zminus. rewrite inject_Z_plus, inject_Z_opp. reflexivity. }
  apply (sq_below _ max_r); auto. pose proof (sq_dist_coord dim (nth v pc []) (nth u pc []) e He). lia.
Qed.

(** The same distances. *)
Theorem agree_cover_zero : forall as1 as2 rnd1 rnd2 dim1 dim2 pc1 pc2 Dist M m1 m2 div1 div2 ov1 ov2 p S P H0 Hs S' P' H0' Hs',
  sound_call as1 rnd1 dim1 pc1 Dist M m1 div1 ov1 p -> sound_call as2 rnd2 dim2 pc2 Dist M m2 div2 ov2 p ->
  create_MV_ss as1 rnd1 (fun x => x) dim1 pc1 Dist M m1 div1 ov1 p = Ok (S, P, H0 :: Hs) ->
  create_MV_ss as2 rnd2 (fun x => x) dim2 pc2 Dist M m2 div2 ov2 p = Ok (S', P', H0' :: Hs') ->
  Permutation (b_bars H0') (b_bars H0).
Proof. intros until Hs'. intros C1 C2 E1 E2. exact (agree_zero _ _ _ _ _ _ _ _ _ _ _ _ _ _ _ _ _ _ _ _ _ _ _ _ _ _ _ _ C1 C2 (same Dist Dist M M eq_refl eq_refl) E1 E2). Qed.

Theorem agree_cover : forall as1 as2 rnd1 rnd2 dim1 dim2 pc1 pc2 Dist M m1 m2 div1 div2 ov1 ov2 p S P Hs S' P' Hs',
  sound_call as1 rnd1 dim1 pc1 Dist M m1 div1 ov1 p -> simple_cover dim1 pc1 Dist M m1 div1 ov1 p ->
  sound_call as2 rnd2 dim2 pc2 Dist M m2 div2 ov2 p -> simple_cover dim2 pc2 Dist M m2 div2 ov2 p ->
  create_MV_ss as1 rnd1 (fun x => x) dim1 pc1 Dist M m1 div1 ov1 p = Ok (S, P, Hs) ->
  create_MV_ss as2 rnd2 (fun x => x) dim2 pc2 Dist M m2 div2 ov2 p = Ok (S', P', Hs') ->
  exists H0 O H0' O', Hs = results H0 O /\ length O = (Z.to_nat m1 - 1)%nat /\ Hs' = results H0' O' /\ length O' = (Z.to_nat m2 - 1)%nat /\
    forall d, (d < Z.to_nat m1)%nat -> (d < Z.to_nat m2)%nat -> Permutation (bars_in H0' O' d) (bars_in H0 O d).
Proof. intros until Hs'. intros C1 D1 C2 D2 E1 E2. exact (agree_all _ _ _ _ _ _ _ _ _ _ _ _ _ _ _ _ _ _ _ _ _ _ _ _ _ _ C1 D1 C2 D2 (same Dist Dist M M eq_refl eq_refl) E1 E2). Qed.
