(** * Properties C19-C25 and C50: persistent homology of a filtered complex *)
From Verif Require Import Base Gauss_model Basis_model PH_model Spec_PH Spec_Basis PH_loop PH_clear PH_props PH_check.
From Coq Require Import Znumtheory.
Local Open Scope Z_scope.

(** ** C19: generators are cycles present at birth *)
Theorem C19_cycles : forall rnd p max_rad n0 Ds Rs out,
  prime p -> valid_complex p max_rad n0 Ds Rs ->
  persistent_homology rnd n0 Ds Rs max_rad p = Ok out ->
  forall d k, (d <= length Ds)%nat ->
  let h := nth d (ph_hom out) empty_basis in
  (k < length (b_bars h))%nat ->
  cycle_at p Ds Rs d (bbirth (b_bars h) k) (colv (b_coords h) k) /\
  exists i, (i < csize Rs d)%nat /\ crad Rs d i = bbirth (b_bars h) k /\
    colv (b_coords h) k i mod p <> 0 /\ forall j, (i < j)%nat -> colv (b_coords h) k j mod p = 0.
Proof. exact C19_aux. Qed.
Print Assumptions C19_cycles.

(** ** C20: the generators alive at [r] are a basis of homology at [r] *)
Theorem C20_homology_basis : forall rnd p max_rad n0 Ds Rs out,
  prime p -> valid_complex p max_rad n0 Ds Rs ->
  persistent_homology rnd n0 Ds Rs max_rad p = Ok out ->
  forall d r, (d <= length Ds)%nat -> r < max_rad ->
  let h := nth d (ph_hom out) empty_basis in
  homology_basis p Ds Rs d r (length (b_bars h)) (colv (b_coords h))
    (fun k => bbirth (b_bars h) k <= r < bdeath (b_bars h) k).
Proof. exact C20_aux. Qed.
Print Assumptions C20_homology_basis.

(** ** C21: finite bars become boundaries exactly at their death *)
Theorem C21_deaths : forall rnd p max_rad n0 Ds Rs out,
  prime p -> valid_complex p max_rad n0 Ds Rs ->
  persistent_homology rnd n0 Ds Rs max_rad p = Ok out ->
  forall d k, (d <= length Ds)%nat ->
  let h := nth d (ph_hom out) empty_basis in
  (k < length (b_bars h))%nat ->
  let b := bbirth (b_bars h) k in let e := bdeath (b_bars h) k in let g := colv (b_coords h) k in
  (e < max_rad -> bounds_at p Ds Rs d e g) /\ (forall r, b <= r < e -> ~ bounds_at p Ds Rs d r g).
Proof. exact C21_aux. Qed.
Print Assumptions C21_deaths.

(** ** C22: images and preimages *)
Theorem C22_images : forall rnd p max_rad n0 Ds Rs out,
  prime p -> valid_complex p max_rad n0 Ds Rs ->
  persistent_homology rnd n0 Ds Rs max_rad p = Ok out ->
  forall d, (d < length Ds)%nat ->
  let I := nth d (ph_im out) empty_basis in
  let pre := nth (S d) (ph_preim out) (Mat 0 []) in
  let n := length (b_bars I) in
  ncols pre = n /\ ncols (b_coords I) = n /\ nrows pre = csize Rs (S d) /\
  (forall k, (k < n)%nat -> bdeath (b_bars I) k = max_rad /\
     chain_at p Rs (S d) (bbirth (b_bars I) k) (colv pre k) /\
     forall i, bd_of Ds Rs (S d) (colv pre k) i mod p = colv (b_coords I) k i mod p) /\
  (forall r k, (k < n)%nat -> bbirth (b_bars I) k <= r -> bounds_at p Ds Rs d r (colv (b_coords I) k)) /\
  (forall r v, bounds_at p Ds Rs d r v -> exists c, (forall k, r < bbirth (b_bars I) k -> c k = 0) /\
     forall i, v i mod p = Zsum n (fun k => c k * colv (b_coords I) k i) mod p) /\
  (forall c, (forall i, Zsum n (fun k => c k * colv (b_coords I) k i) mod p = 0) -> forall k, (k < n)%nat -> c k mod p = 0).
Proof. exact C22_aux. Qed.
Print Assumptions C22_images.

(** ** C23: no failure; shape and order of the output *)
Theorem C23_total : forall rnd p max_rad n0 Ds Rs,
  prime p -> valid_complex p max_rad n0 Ds Rs ->
  exists out, persistent_homology rnd n0 Ds Rs max_rad p = Ok out.
Proof. exact C23_total_aux. Qed.
Print Assumptions C23_total.

Theorem C23_shape : forall rnd p max_rad n0 Ds Rs out,
  prime p -> valid_complex p max_rad n0 Ds Rs ->
  persistent_homology rnd n0 Ds Rs max_rad p = Ok out ->
  length (ph_hom out) = S (length Ds) /\ length (ph_im out) = S (length Ds) /\ length (ph_preim out) = S (length Ds) /\
  forall d, (d <= length Ds)%nat ->
    let h := nth d (ph_hom out) empty_basis in
    let I := nth d (ph_im out) empty_basis in
    (forall k, (k < length (b_bars h))%nat -> bbirth (b_bars h) k < bdeath (b_bars h) k <= max_rad) /\
    (forall i j, (i < j < length (b_bars h))%nat -> standard_before rnd (b_bars h) i j) /\
    (forall i j, (i < j < length (b_bars I))%nat -> standard_before rnd (b_bars I) i j) /\
    ncols (b_coords h) = length (b_bars h) /\ b_dim h = length (b_bars h) /\
    b_dim I = length (b_bars I) /\
    (forall k, (k < length (b_bars h))%nat -> length (col (b_coords h) k) = csize Rs d /\
       forall i, 0 <= colv (b_coords h) k i < p) /\
    (forall k, (k < length (b_bars I))%nat -> length (col (b_coords I) k) = csize Rs d /\
       forall i, 0 <= colv (b_coords I) k i < p) /\
    (d = length Ds -> b_bars I = []).
Proof. exact C23_aux. Qed.
Print Assumptions C23_shape.

(** ** C24: clearing pivot columns changes nothing *)
Theorem C24_clearing_transparent : forall p max_rad n0 Ds Rs,
  prime p -> valid_complex p max_rad n0 Ds Rs -> forall rnd,
  persistent_homology_nc rnd n0 Ds Rs max_rad p = persistent_homology rnd n0 Ds Rs max_rad p.
Proof. exact C24_same. Qed.
Print Assumptions C24_clearing_transparent.

Theorem C24_cleared_columns_reduce_to_zero : forall p max_rad n0 Ds Rs,
  prime p -> valid_complex p max_rad n0 Ds Rs ->
  forall d v k R T, (d < length Ds)%nat -> (exists r, bounds_at p Ds Rs (S d) r v) ->
  (k < csize Rs (S d))%nat -> v k mod p <> 0 -> (forall j, (k < j)%nat -> v j mod p = 0) ->
  gauss_col (nth d Ds (Mat 0 [])) p = Ok (R, T) -> forall i, get R i k = 0.
Proof. exact C24_zero. Qed.
Print Assumptions C24_cleared_columns_reduce_to_zero.

(** ** C25: number of bars = Betti number *)
Theorem C25_betti_numbers : forall rnd p max_rad n0 Ds Rs out,
  prime p -> valid_complex p max_rad n0 Ds Rs ->
  persistent_homology rnd n0 Ds Rs max_rad p = Ok out ->
  forall d r, (d <= length Ds)%nat -> r < max_rad ->
  (exists z b, has_dim p (cycle_at p Ds Rs d r) z /\ has_dim p (bounds_at p Ds Rs d r) b) /\
  forall z b, has_dim p (cycle_at p Ds Rs d r) z -> has_dim p (bounds_at p Ds Rs d r) b ->
    (count_bars (spans r r) (b_bars (nth d (ph_hom out) empty_basis)) + b = z)%nat.
Proof. exact C25_aux. Qed.
Print Assumptions C25_betti_numbers.

(** ** C50: number of bars spanning [r, s] = persistent Betti number *)
Theorem C50_persistent_betti_numbers : forall rnd p max_rad n0 Ds Rs out,
  prime p -> valid_complex p max_rad n0 Ds Rs ->
  persistent_homology rnd n0 Ds Rs max_rad p = Ok out ->
  forall d r s, (d <= length Ds)%nat -> r <= s < max_rad ->
  (exists z b, has_dim p (cycle_at p Ds Rs d r) z /\
     has_dim p (fun v => cycle_at p Ds Rs d r v /\ bounds_at p Ds Rs d s v) b) /\
  forall z b, has_dim p (cycle_at p Ds Rs d r) z ->
    has_dim p (fun v => cycle_at p Ds Rs d r v /\ bounds_at p Ds Rs d s v) b ->
    (count_bars (spans r s) (b_bars (nth d (ph_hom out) empty_basis)) + b = z)%nat.
Proof. exact C50_aux. Qed.
Print Assumptions C50_persistent_betti_numbers.

(** ** A concrete filtered complex: a hollow square with a diagonal, one of whose
    triangles is filled later; coefficients modulo 5. *)
Definition ex_D1 : mat := Mat 4 [[1;4;0;0];[0;1;4;0];[0;0;1;4];[1;0;0;4];[1;0;4;0]].
Definition ex_D2 : mat := Mat 5 [[1;1;0;0;4]].
Definition ex_R : list (list Z) := [[0;0;0;0];[1;2;3;4;5];[7]].

Example ex_valid : valid_complex 5 10 4 [ex_D1; ex_D2] ex_R.
Proof. apply check_complex_ok. vm_compute. reflexivity. Qed.

Example ex_run : exists out, persistent_homology (fun x => x) 4 [ex_D1; ex_D2] ex_R 10 5 = Ok out /\
  map b_bars (ph_hom out) = [[(0, 10); (0, 3); (0, 2); (0, 1)]; [(4, 10); (5, 7)]; []] /\
  map b_bars (ph_im out) = [[(1, 10); (2, 10); (3, 10)]; [(7, 10)]; []].
Proof. eexists. split; [vm_compute; reflexivity|]. split; vm_compute; reflexivity. Qed.

(** Radii not below [max_rad] do break the code: the coordinates and the filtered
    bars of the simplices disagree and the constructor raises [ValueError]. *)
Theorem C23_max_rad_refuted : exists rnd n0 Ds Rs max_rad p,
  prime p /\ length Rs = S (length Ds) /\ (forall d i, crad Rs d i <= max_rad) /\
  persistent_homology rnd n0 Ds Rs max_rad p = Err ValueError.
Proof.
  exists (fun x => x), 2%nat, [Mat 2 [[1;1]; [1;1]]], [[0;0];[1;3]], 3, 2.
  split; [apply prime_2|]. split; [reflexivity|]. split.
  - intros [|[|[|d]]] [|[|[|i]]]; cbn; lia.
  - vm_compute. reflexivity.
Qed.
Print Assumptions C23_max_rad_refuted.
