(** * Properties C70 and C71: bars of degree 0 count connected components and do not depend on the prime *)
From Coq Require Import QArith Permutation Znumtheory.
From Verif Require Import Base Basis_model PH_model Simp_model SS_model Cover_model HP_model Spec_Simp Simp_props Spec_PH Spec_Rips Spec_Bars Spec_Call Spec_MV Spec_Symm
  Spec_Agree Spec_Comp Rips_comp Comp_props.
Local Open Scope Z_scope.

(** ** C70: the bars of degree 0 are born at 0, and as many live beyond a radius as there are components at that radius. *)
Theorem C70_local : forall argsort rnd Dist max_r max_dim p, sorts argsort -> square Dist -> (forall u v, (u < v < length Dist)%nat -> 0 <= dist Dist u v) -> 0 < max_r -> prime p ->
  forall Cs Ds out, local_homology argsort rnd Dist max_r max_dim p = Ok (Cs, Ds, out) -> counts_components Dist max_r (b_bars (nth 0 (ph_hom out) empty_basis)).
Proof. exact comp_local. Qed.
Print Assumptions C70_local.

Theorem C70_cover : forall argsort rnd dim pc Dist max_r max_dim max_div overlap p S P H0 Hs, sound_call argsort rnd dim pc Dist max_r max_dim max_div overlap p ->
  create_MV_ss argsort rnd (fun x => x) dim pc Dist max_r max_dim max_div overlap p = Ok (S, P, H0 :: Hs) -> counts_components Dist max_r (b_bars H0).
Proof. exact comp_cover. Qed.
Print Assumptions C70_cover.

(** At every radius there is a list with one point of each component. *)
Theorem C70_exists : forall Dist r, exists l, components Dist r l.
Proof. exact components_exist. Qed.
Print Assumptions C70_exists.

(** ** C71: the bars of degree 0 do not depend on the prime. *)
Theorem C71_local : forall as1 as2 rnd1 rnd2 Dist max_r m1 m2 p q, sorts as1 -> sorts as2 -> square Dist -> (forall u v, (u < v < length Dist)%nat -> 0 <= dist Dist u v) -> 0 < max_r ->
  prime p -> prime q -> forall Cs Ds out Cs' Ds' out', local_homology as1 rnd1 Dist max_r m1 p = Ok (Cs, Ds, out) -> local_homology as2 rnd2 Dist max_r m2 q = Ok (Cs', Ds', out') ->
  Permutation (b_bars (nth 0 (ph_hom out) empty_basis)) (b_bars (nth 0 (ph_hom out') empty_basis)).
Proof. exact field_local. Qed.
Print Assumptions C71_local.

Theorem C71_cover : forall as1 as2 rnd1 rnd2 dim1 dim2 pc1 pc2 Dist M m1 m2 div1 div2 ov1 ov2 p q S P H0 Hs S' P' H0' Hs',
  sound_call as1 rnd1 dim1 pc1 Dist M m1 div1 ov1 p -> sound_call as2 rnd2 dim2 pc2 Dist M m2 div2 ov2 q ->
  create_MV_ss as1 rnd1 (fun x => x) dim1 pc1 Dist M m1 div1 ov1 p = Ok (S, P, H0 :: Hs) ->
  create_MV_ss as2 rnd2 (fun x => x) dim2 pc2 Dist M m2 div2 ov2 q = Ok (S', P', H0' :: Hs') ->
  Permutation (b_bars H0) (b_bars H0').
Proof. exact field_cover. Qed.
Print Assumptions C71_cover.

(** In degree 1 they can. *)
Theorem C71_degree_one_refuted : exists Dist max_r max_dim p q, square Dist /\ symmetric Dist /\ (forall u v, (u < v < length Dist)%nat -> 0 <= dist Dist u v) /\ 0 < max_r /\ prime p /\ prime q /\
  exists Cs Ds out Cs' Ds' out', local_homology stable_argsort (fun x => x) Dist max_r max_dim p = Ok (Cs, Ds, out) /\
    local_homology stable_argsort (fun x => x) Dist max_r max_dim q = Ok (Cs', Ds', out') /\
    ~ Permutation (b_bars (nth 1 (ph_hom out) empty_basis)) (b_bars (nth 1 (ph_hom out') empty_basis)).
Proof. exact plane_differs. Qed.
Print Assumptions C71_degree_one_refuted.

(** ** Four points on a line, in two components at radius 2 *)
Definition line : list (list Z) := [[0; 1; 3; 7]; [1; 0; 2; 6]; [3; 2; 0; 4]; [7; 6; 4; 0]].

Example C70_case : components line 2 [0; 3]%nat /\ degree_bars line 10 1 5 0 = Ok [(0, 10); (0, 4); (0, 2); (0, 1)] /\ square line.
Proof.
  split; [|split; [vm_compute; reflexivity|intros [|[|[|[|i]]]] H; cbn in *; try reflexivity; lia]].
  assert (J : forall u v, joined line 2 u v -> (u < 3)%nat -> (v < 3)%nat).
  { intros u v H Hu. induction H as [|v w _ IH E]; [exact Hu|]. change (length line) with 4%nat in E. destruct E as [[B E]|[B E]]; change (length line) with 4%nat in B; [|lia].
    destruct (Nat.eq_dec w 3) as [->|]; [|lia]. exfalso. do 3 (destruct v as [|v]; [apply Z.leb_le in E; discriminate E|]). lia. }
  split; [repeat constructor; cbn; lia|]. split; [intros v [<-|[<-|[]]]; cbn; lia|]. split.
  - intros v Hv. change (length line) with 4%nat in Hv. assert (E1 : edge line 2 0 1) by (left; split; [cbn; lia|apply Z.leb_le; reflexivity]). assert (E2 : edge line 2 1 2) by (left; split; [cbn; lia|apply Z.leb_le; reflexivity]).
    destruct v as [|[|[|[|v]]]]; [exists 0%nat|exists 0%nat|exists 0%nat|exists 3%nat|lia]; (split; [cbn; tauto|]).
    + apply joined_refl.
    + exact (joined_step _ _ _ _ _ (joined_refl _ _ _) E1).
    + exact (joined_step _ _ _ _ _ (joined_step _ _ _ _ _ (joined_refl _ _ _) E1) E2).
    + apply joined_refl.
  - intros u v [<-|[<-|[]]] [<-|[<-|[]]] H; try reflexivity; [apply J in H; lia|]. apply (joined_sym line 2) in H. apply J in H; lia.
Qed.

Example C71_case : degree_bars line 10 1 2 0 = Ok [(0, 10); (0, 4); (0, 2); (0, 1)] /\ degree_bars plane 3 2 2 1 = Ok [(2, 3)] /\ degree_bars plane 3 2 3 1 = Ok [].
Proof. repeat split; vm_compute; reflexivity. Qed.
