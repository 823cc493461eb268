(** * Properties C26 and C27: persistent homology of Vietoris-Rips filtrations *)
From Verif Require Import Base Basis_model PH_model Simp_model Spec_Simp Simp_props Spec_PH Spec_Rips Rips_props.
From Coq Require Import Permutation Znumtheory.
Local Open Scope Z_scope.

(** ** C26: the local pipeline computes persistent homology of the Rips filtration *)
Theorem C26_total : forall argsort, sorts argsort -> forall rnd Dist max_r max_dim p,
  square Dist -> (forall u v, (u < v < length Dist)%nat -> 0 <= dist Dist u v) -> 0 < max_r -> prime p ->
  exists Cs Ds out, local_homology argsort rnd Dist max_r max_dim p = Ok (Cs, Ds, out).
Proof. exact C26_total_aux. Qed.
Print Assumptions C26_total.

Theorem C26_rips_homology : forall argsort, sorts argsort -> forall rnd Dist max_r max_dim p,
  square Dist -> (forall u v, (u < v < length Dist)%nat -> 0 <= dist Dist u v) -> 0 < max_r -> prime p ->
  forall Cs Ds out, local_homology argsort rnd Dist max_r max_dim p = Ok (Cs, Ds, out) ->
  forall d r, (d < Z.to_nat (Z.max 1 max_dim))%nat -> r < max_r ->
  let n := length Dist in let h := nth d (ph_hom out) empty_basis in
  quotient_basis p (s_cycle p n (fun d => rips Dist d r) d) (s_bounds p n (fun d => rips Dist d r) d)
    (length (b_bars h)) (fun k => on_simplices (level n Cs d) (colv (b_coords h) k))
    (fun k => bbirth (b_bars h) k <= r < bdeath (b_bars h) k).
Proof. exact C26_aux. Qed.
Print Assumptions C26_rips_homology.

(** In degree [max_dim] the code computes the homology of the truncated complex. *)
Theorem C26_top_degree : forall argsort, sorts argsort -> forall rnd Dist max_r max_dim p,
  square Dist -> (forall u v, (u < v < length Dist)%nat -> 0 <= dist Dist u v) -> 0 < max_r -> prime p ->
  forall Cs Ds out, local_homology argsort rnd Dist max_r max_dim p = Ok (Cs, Ds, out) ->
  forall d r, (d <= Z.to_nat (Z.max 1 max_dim))%nat -> r < max_r ->
  let n := length Dist in let h := nth d (ph_hom out) empty_basis in
  let K d := rips_upto (Z.to_nat (Z.max 1 max_dim)) Dist d r in
  quotient_basis p (s_cycle p n K d) (s_bounds p n K d)
    (length (b_bars h)) (fun k => on_simplices (level n Cs d) (colv (b_coords h) k))
    (fun k => bbirth (b_bars h) k <= r < bdeath (b_bars h) k).
Proof. exact C26_top_aux. Qed.
Print Assumptions C26_top_degree.

Theorem C26_rips_persistent_betti : forall argsort, sorts argsort -> forall rnd Dist max_r max_dim p,
  square Dist -> (forall u v, (u < v < length Dist)%nat -> 0 <= dist Dist u v) -> 0 < max_r -> prime p ->
  forall Cs Ds out, local_homology argsort rnd Dist max_r max_dim p = Ok (Cs, Ds, out) ->
  forall d r s, (d < Z.to_nat (Z.max 1 max_dim))%nat -> r <= s < max_r ->
  let n := length Dist in let Zr := s_cycle p n (fun d => rips Dist d r) d in let Bs := s_bounds p n (fun d => rips Dist d s) d in
  (exists z b, has_dim p Zr z /\ has_dim p (fun c => Zr c /\ Bs c) b) /\
  forall z b, has_dim p Zr z -> has_dim p (fun c => Zr c /\ Bs c) b ->
    (count_bars (spans r s) (b_bars (nth d (ph_hom out) empty_basis)) + b = z)%nat.
Proof. exact C26_betti_aux. Qed.
Print Assumptions C26_rips_persistent_betti.

(** ** C27: the barcode does not depend on how ties are broken (nor on the rounding used to order bars) *)
Theorem C27_tie_breaking : forall argsort1 argsort2, sorts argsort1 -> sorts argsort2 ->
  forall rnd1 rnd2 Dist max_r max_dim p,
  square Dist -> (forall u v, (u < v < length Dist)%nat -> 0 <= dist Dist u v) -> 0 < max_r -> prime p ->
  forall Cs1 Ds1 out1 Cs2 Ds2 out2,
  local_homology argsort1 rnd1 Dist max_r max_dim p = Ok (Cs1, Ds1, out1) ->
  local_homology argsort2 rnd2 Dist max_r max_dim p = Ok (Cs2, Ds2, out2) ->
  forall d, (d <= Z.to_nat (Z.max 1 max_dim))%nat ->
  Permutation (b_bars (nth d (ph_hom out1) empty_basis)) (b_bars (nth d (ph_hom out2) empty_basis)).
Proof. exact C27_aux. Qed.
Print Assumptions C27_tie_breaking.

(** ** A concrete case: the corners of a rectangle (squared distances) with many ties. *)
Definition ex_rect : list (list Z) := [[0;4;8;4]; [4;0;4;8]; [8;4;0;4]; [4;8;4;0]].

(** A stable sort, and one that breaks all ties the other way. *)
Definition reverse_argsort : list Z -> list nat := argsort_by (@rev nat).

Example ex_stable : sorts stable_argsort.
Proof. exact stable_argsort_sorts. Qed.

Example ex_reverse : sorts reverse_argsort.
Proof. exact (argsort_by_sorts (@rev nat) (@Permutation_rev nat)). Qed.

Example ex_rect_square : square ex_rect.
Proof. intros [|[|[|[|i]]]] H; cbn in *; try reflexivity; lia. Qed.

Example ex_rect_nonneg : forall u v, (u < v < length ex_rect)%nat -> 0 <= dist ex_rect u v.
Proof. intros u [|[|[|[|v]]]] H; cbn in H; try lia; destruct u as [|[|[|u]]]; cbn; lia. Qed.

Example ex_rect_run : exists Cs Ds out Cs' Ds' out',
  local_homology stable_argsort (fun x => x) ex_rect 10 2 5 = Ok (Cs, Ds, out) /\
  local_homology reverse_argsort (fun x => x) ex_rect 10 2 5 = Ok (Cs', Ds', out') /\
  Cs <> Cs' /\
  map b_bars (ph_hom out) = [[(0, 10); (0, 4); (0, 4); (0, 4)]; [(4, 8)]; [(8, 10)]] /\
  map b_bars (ph_hom out') = [[(0, 10); (0, 4); (0, 4); (0, 4)]; [(4, 8)]; [(8, 10)]].
Proof.
  do 6 eexists. split; [vm_compute; reflexivity|]. split; [vm_compute; reflexivity|].
  split; [discriminate|]. split; reflexivity.
Qed.
