(** * Property C74: cells, classes and images are counted together *)
From Coq Require Import Znumtheory.
From Verif Require Import Base Basis_model PH_model Simp_model Spec_Simp Simp_props Spec_PH Spec_Rips Spec_Euler PH_euler Rips_euler Comp_props.
Local Open Scope Z_scope.

(** ** C74: at every radius each cell gives a class, an image in its own degree or an image in the degree below. *)
Theorem C74_cells : forall rnd p max_rad n0 Ds Rs out, prime p -> valid_complex p max_rad n0 Ds Rs -> persistent_homology rnd n0 Ds Rs max_rad p = Ok out ->
  forall d r, (d <= length Ds)%nat -> r < max_rad ->
  cells_at Rs d r = (count_bars (spans r r) (b_bars (nth d (ph_hom out) empty_basis)) + born r (b_bars (nth d (ph_im out) empty_basis)) +
    match d with O => 0 | S d' => born r (b_bars (nth d' (ph_im out) empty_basis)) end)%nat.
Proof. exact count_cells. Qed.
Print Assumptions C74_cells.

(** Hence the Euler characteristic is the alternating sum of the numbers of living bars. *)
Theorem C74_euler : forall rnd p max_rad n0 Ds Rs out, prime p -> valid_complex p max_rad n0 Ds Rs -> persistent_homology rnd n0 Ds Rs max_rad p = Ok out -> forall r, r < max_rad ->
  alternating (length Ds) (fun d => cells_at Rs d r) = alternating (length Ds) (fun d => count_bars (spans r r) (b_bars (nth d (ph_hom out) empty_basis))).
Proof. exact euler. Qed.
Print Assumptions C74_euler.

(** For the Rips complex without its simplices of dimension above [max_dim]. *)
Theorem C74_local : forall argsort rnd Dist max_r max_dim p, sorts argsort -> square Dist -> (forall u v, (u < v < length Dist)%nat -> 0 <= dist Dist u v) -> 0 < max_r -> prime p ->
  forall Cs Ds out, local_homology argsort rnd Dist max_r max_dim p = Ok (Cs, Ds, out) -> let m := Z.to_nat (Z.max 1 max_dim) in
  forall r N, r < max_r -> (forall d, (d <= m)%nat -> simplex_count Dist r d (N d)) ->
  alternating m N = alternating m (fun d => count_bars (spans r r) (b_bars (nth d (ph_hom out) empty_basis))).
Proof. exact euler_local. Qed.
Print Assumptions C74_local.

(** ** A square: four points and, at radius 4, four edges *)
Definition four : list (list Z) := [[0; 4; 8; 4]; [4; 0; 4; 8]; [8; 4; 0; 4]; [4; 8; 4; 0]].

Example C74_four : square four /\ simplex_count four 4 0 4 /\ simplex_count four 4 1 4 /\
  degree_bars four 10 1 5 0 = Ok [(0, 10); (0, 4); (0, 4); (0, 4)] /\ degree_bars four 10 1 5 1 = Ok [(4, 10); (8, 10); (8, 10)].
Proof.
  split; [intros [|[|[|[|i]]]] H; cbn in *; try reflexivity; lia|]. split; [|split; [|split; vm_compute; reflexivity]].
  - exists [[0]; [1]; [2]; [3]]%nat. split; [repeat constructor; cbn; intuition discriminate|]. split; [|reflexivity]. intros s. split.
    + intros Hs. assert (B : exists v, s = [v] /\ (v < 4)%nat) by (cbn in Hs; decompose [or] Hs; try contradiction; subst s; eexists; (split; [reflexivity|lia])). destruct B as (v & -> & Hv).
      split; [|lia]. split; [reflexivity|]. split; [repeat constructor|]. split; [intros x [<-|[]]; exact Hv|]. intros a b [<-|[]] [<-|[]]; lia.
    + intros [(HL & _ & HB & _) _]. destruct s as [|v [|w s]]; try discriminate. specialize (HB v (or_introl eq_refl)). change (length four) with 4%nat in HB. destruct v as [|[|[|[|v]]]]; cbn; try tauto. lia.
  - exists [[0; 1]; [1; 2]; [2; 3]; [0; 3]]%nat. split; [repeat constructor; cbn; intuition discriminate|]. split; [|reflexivity]. intros s. split.
    + intros Hs. assert (B : exists u v, s = [u; v] /\ (u < v < 4)%nat /\ dist four u v <= 4) by (cbn in Hs; decompose [or] Hs; try contradiction; subst s; do 2 eexists; (split; [reflexivity|split; [lia|apply Z.leb_le; reflexivity]])).
      destruct B as (u & v & -> & H & D). split; [|lia]. split; [reflexivity|]. split; [repeat constructor; lia|]. split; [intros x [<-|[<-|[]]]; cbn; lia|]. intros a b [<-|[<-|[]]] [<-|[<-|[]]] L; lia.
    + intros [(HL & HI & HB & HA) _]. destruct s as [|u [|v [|w s]]]; try discriminate. assert (L : (u < v)%nat) by (inversion_clear HI as [|? ? _ F]; inversion_clear F as [|? ? X _]; lia).
      pose proof (HB v (or_intror (or_introl eq_refl))) as Hv. change (length four) with 4%nat in Hv. specialize (HA u v (or_introl eq_refl) (or_intror (or_introl eq_refl)) L).
      apply Z.leb_le in HA. destruct v as [|[|[|[|v]]]]; try lia; destruct u as [|[|[|u]]]; try lia; first [discriminate HA|cbn; tauto].
Qed.

(** The projective plane: 11 - 30 + 20 = 1 - 1 + 1 modulo 2 and 1 - 0 + 0 modulo 3. *)
Example C74_plane : match vietoris_rips stable_argsort plane 3 2 with Ok (n, Cs, R) => (n, map (@length simplex) Cs) | Err _ => (0%nat, []) end = (11, [30; 20])%nat /\
  map (fun d => degree_bars plane 3 2 2 d) [0; 1; 2]%nat = [Ok ((0, 3) :: repeat (0, 2) 10); Ok [(2, 3)]; Ok [(2, 3)]] /\
  map (fun d => degree_bars plane 3 2 3 d) [0; 1; 2]%nat = [Ok ((0, 3) :: repeat (0, 2) 10); Ok []; Ok []].
Proof. repeat split; vm_compute; reflexivity. Qed.
