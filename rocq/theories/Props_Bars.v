(** * Barcodes: properties C26, C39 and C40 stated with persistent ranks *)
From Verif Require Import Base Basis_model PH_model IK_model Simp_model Spec_Simp Simp_props Spec_PH Spec_Rips Spec_IK Spec_Bars Bars IK_props MPH_props MPH_bars Rips_bars.
From Coq Require Import Permutation Znumtheory.
Local Open Scope Z_scope.

(** A filtered quotient has at most one barcode, so each of the theorems below determines the bars up to their order. *)
Theorem C26_barcode_unique : forall X p, prime p -> forall (Zs Bs : Z -> (X -> Z) -> Prop) M b1 b2, (forall r, r < M -> Spec_Bars.subspace p (Bs r)) ->
  barcode p Zs Bs M b1 -> barcode p Zs Bs M b2 -> Permutation b1 b2.
Proof. exact @barcode_unique. Qed.
Print Assumptions C26_barcode_unique.

(** ** C26: the bars of the local pipeline are the barcode of the Rips filtration. *)
Theorem C26_rips_barcode : forall argsort, sorts argsort -> forall rnd Dist max_r max_dim p,
  square Dist -> (forall u v, (u < v < length Dist)%nat -> 0 <= dist Dist u v) -> 0 < max_r -> prime p ->
  forall Cs Ds out, local_homology argsort rnd Dist max_r max_dim p = Ok (Cs, Ds, out) ->
  forall d, (d < Z.to_nat (Z.max 1 max_dim))%nat -> let n := length Dist in
  barcode p (fun r => s_cycle p n (fun d => rips Dist d r) d) (fun r => s_bounds p n (fun d => rips Dist d r) d)
    max_r (b_bars (nth d (ph_hom out) empty_basis)).
Proof. exact C26_barcode_aux. Qed.
Print Assumptions C26_rips_barcode.

(** Whatever else is the barcode of the Rips filtration agrees with the bars of the local pipeline. *)
Theorem C26_rips_barcode_unique : forall argsort, sorts argsort -> forall rnd Dist max_r max_dim p,
  square Dist -> (forall u v, (u < v < length Dist)%nat -> 0 <= dist Dist u v) -> 0 < max_r -> prime p ->
  forall Cs Ds out, local_homology argsort rnd Dist max_r max_dim p = Ok (Cs, Ds, out) ->
  forall d bars, (d < Z.to_nat (Z.max 1 max_dim))%nat -> let n := length Dist in
  barcode p (fun r => s_cycle p n (fun d => rips Dist d r) d) (fun r => s_bounds p n (fun d => rips Dist d r) d) max_r bars ->
  Permutation bars (b_bars (nth d (ph_hom out) empty_basis)).
Proof. exact C26_barcode_unique_aux. Qed.
Print Assumptions C26_rips_barcode_unique.

(** The corners of a rectangle meet the hypotheses, and have one loop, from 4 to 8. *)
Example C26_barcode_case :
  let D := [[0;4;8;4]; [4;0;4;8]; [8;4;0;4]; [4;8;4;0]] in
  barcode 5 (fun r => s_cycle 5 4 (fun d => rips D d r) 1) (fun r => s_bounds 5 4 (fun d => rips D d r) 1) 10 [(4, 8)].
Proof.
  intros D. destruct (local_homology stable_argsort (fun x => x) D 10 2 5) as [[[Cs Ds] out]|] eqn:E; [|vm_compute in E; discriminate].
  assert (X : b_bars (nth 1 (ph_hom out) empty_basis) = [(4, 8)]).
  { vm_compute in E. injection E as <- <- <-. reflexivity. }
  rewrite <- X. refine (C26_barcode_aux _ stable_argsort_sorts _ D 10 2 5 _ _ _ prime_5 Cs Ds out E 1 _).
  - intros [|[|[|[|i]]]] H; cbn in *; try reflexivity; lia.
  - intros u [|[|[|[|v]]]] H; cbn in H; try lia; destruct u as [|[|[|u]]]; cbn; lia.
  - lia.
  - cbn. lia.
Qed.

(** ** C39: the bars of the kernel are its barcode, with no condition on the radii. *)
Theorem C39_kernel_barcode : forall rnd p A B F, ik_input rnd p A B F ->
  forall Im Ker Pre, image_kernel rnd A B F p 0 = Ok (Im, Some Ker, Pre) ->
  forall M, (forall x, In x (b_bars Ker) -> snd x <= M) ->
  barcode p (within p (b_bars A) (ker_at p (b_bars A) (b_bars B) F)) (within p (b_bars A) (null_at p (b_bars A))) M (b_bars Ker).
Proof. exact kernel_barcode_aux. Qed.
Print Assumptions C39_kernel_barcode.

Example C39_kernel_barcode_case :
  let A := plain [(2, 9); (1, 9); (1, 9)] in let B := plain [(1, 6); (0, 8); (0, 4)] in let F := Mat 3 [[2; 1; 0]; [0; 3; 1]; [1; 3; 1]] in
  ik_input (fun x => x) 5 A B F /\ exists Im Ker Pre, image_kernel (fun x => x) A B F 5 0 = Ok (Im, Some Ker, Pre) /\ b_bars Ker = [(4, 9); (6, 9); (8, 9)].
Proof.
  intros A B F. split; [apply ik_plain; try reflexivity; [apply prime_5|cbn; lia]|]. do 3 eexists. split; [vm_compute; reflexivity|]. reflexivity.
Qed.

(** ** C40: the bars of a quotient and of the homology of a complex of persistence modules are their barcodes. *)
Theorem C40_quotient_barcode : forall rnd p B M N, quot_input rnd p B M N -> (0 < b_dim N)%nat -> (0 < b_dim M)%nat ->
  exists Q, quotient rnd true M N p = Ok Q /\
  forall R, (forall x, In x (b_bars Q) -> snd x <= R) ->
  barcode p (within p (b_bars B) (born_span p (b_bars B) (b_bars M) (b_coords M)))
    (within p (b_bars B) (born_span p (b_bars B) (b_bars N) (b_coords N))) R (b_bars Q).
Proof. exact quot_barcode_aux. Qed.
Print Assumptions C40_quotient_barcode.

Theorem C40_homology_barcode : forall rnd p D Bs, chain_input rnd p D Bs ->
  forall Hom Im Pre, module_persistence_homology rnd D Bs p = Ok (Hom, Im, Pre) ->
  forall d, (d < length Bs)%nat -> ~ over_zero Bs d ->
  forall M, (forall x, In x (b_bars (nth d Hom empty_basis)) -> snd x <= M) ->
  (0 < b_dim (nth d Bs empty_basis))%nat ->
  barcode p (within p (b_bars (nth d Bs empty_basis)) (cycles_at p D Bs d)) (within p (b_bars (nth d Bs empty_basis)) (bounds_at p D Bs d)) M
    (b_bars (nth d Hom empty_basis)).
Proof. exact mph_barcode_aux. Qed.
Print Assumptions C40_homology_barcode.

Example C40_quotient_barcode_case : quot_input (fun x => x) 5 q2B q2M q2N /\ (0 < b_dim q2N)%nat /\ (0 < b_dim q2M)%nat /\
  exists Q, quotient (fun x => x) true q2M q2N 5 = Ok Q /\ b_bars Q = [(0, 10)].
Proof. split; [exact q2_input|]. split; [cbn; lia|]. split; [cbn; lia|]. eexists. split; [vm_compute; reflexivity|]. reflexivity. Qed.

Example C40_homology_barcode_case : chain_input (fun x => x) 5 m1D (map plain m1B) /\
  exists Hom Im Pre, module_persistence_homology (fun x => x) m1D (map plain m1B) 5 = Ok (Hom, Im, Pre) /\
    map b_bars Hom = [[(0, 2); (0, 1)]; [(7, 8)]; []] /\ ~ over_zero (map plain m1B) 0 /\ ~ over_zero (map plain m1B) 1.
Proof.
  split; [exact m1_chain|]. do 3 eexists. split; [vm_compute; reflexivity|]. split; [reflexivity|].
  split; intros H; vm_compute in H; intuition discriminate.
Qed.
