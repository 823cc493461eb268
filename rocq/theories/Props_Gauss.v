(** * Properties C01-C12: arithmetic modulo p and Gaussian elimination *)
From Verif Require Import Base Lin Gauss_model Spec_Gauss Gauss_arith Gauss_props.
From Coq Require Import Znumtheory.
Local Open Scope Z_scope.

(** ** C01 *)
Theorem C01_inv_mod_p_inverse : forall p a, prime p -> 0 < a -> ~ (p | a) ->
  exists x, inv_mod_p a p = Ok x /\ 1 <= x < p /\ (x * a) mod p = 1.
Proof. exact (fun p a => inv_mod_p_prime a p). Qed.
Print Assumptions C01_inv_mod_p_inverse.

Example C01_case : inv_mod_p 3 7 = Ok 5 /\ inv_mod_p 10 7 = Ok 5.
Proof. split; vm_compute; reflexivity. Qed.

(** ** C02 *)
Theorem C02_inv_mod_p_errors : forall a p, 0 < a -> 1 <= p ->
  (Z.gcd a p = 1 /\ ~ (p | a) -> exists x, inv_mod_p a p = Ok x /\ 1 <= x < p /\ (x * a) mod p = 1) /\
  (Z.gcd a p <> 1 \/ (p | a) -> inv_mod_p a p = Err ValueError).
Proof. exact inv_mod_p_spec. Qed.
Print Assumptions C02_inv_mod_p_errors.

(** Negative arguments are always rejected ... *)
Theorem C02_inv_mod_p_negative : forall a p, a < 0 -> 1 <= p -> inv_mod_p a p = Err ValueError.
Proof. exact inv_mod_p_negative. Qed.
Print Assumptions C02_inv_mod_p_negative.

(** ... so "returns the inverse of every invertible integer" is false. *)
Theorem C02_all_integers_refuted : exists a p, prime p /\ (3 * a) mod p = 1 /\ inv_mod_p a p = Err ValueError.
Proof. exists (-3), 5. split; [exact prime_5|]. split; vm_compute; reflexivity. Qed.
Print Assumptions C02_all_integers_refuted.

(** ** C03 *)
Theorem C03_gauss_col_factorisation : forall p A R T, 2 <= p -> wf_mat A -> (0 < nrows A)%nat ->
  gauss_col A p = Ok (R, T) ->
  wf_mat R /\ nrows R = nrows A /\ ncols R = ncols A /\ nrows T = ncols A /\ ncols T = ncols A /\
  forall i j, (i < nrows A)%nat -> (j < ncols A)%nat ->
    get R i j mod p = prod_entry (ncols A) A T i j mod p.
Proof. exact C03_aux. Qed.
Print Assumptions C03_gauss_col_factorisation.

(** ** C04 *)
Theorem C04_gauss_col_unitriangular : forall p A R T, 2 <= p -> wf_mat A -> (0 < nrows A)%nat ->
  gauss_col A p = Ok (R, T) ->
  (forall j, (j < ncols A)%nat -> get T j j = 1) /\
  (forall i j, (j < i < ncols A)%nat -> get T i j = 0) /\
  (forall i j, (i < ncols A)%nat -> (j < ncols A)%nat -> 0 <= get T i j < p) /\
  (forall n v, (n <= ncols A)%nat ->
     (forall i, (nrows A <= i)%nat -> v i = 0) ->
     in_col_span p R n (nrows A) v <-> in_col_span p A n (nrows A) v).
Proof. exact C04_aux. Qed.
Print Assumptions C04_gauss_col_unitriangular.

(** ** C05 *)
Theorem C05_gauss_col_reduced : forall p A R T, prime p -> wf_mat A -> reduced_mat p A -> (0 < nrows A)%nat ->
  gauss_col A p = Ok (R, T) ->
  (forall k l i, (k < ncols A)%nat -> (l < ncols A)%nat ->
     pivot_at (col R k) i -> pivot_at (col R l) i -> k = l) /\
  (forall c : nat -> Z,
     (forall k, (k < ncols A)%nat -> (forall i, get R i k = 0) -> c k = 0) ->
     (forall i, (i < nrows A)%nat -> Zsum (ncols A) (fun k => c k * get R i k) mod p = 0) ->
     forall k, (k < ncols A)%nat -> c k mod p = 0).
Proof. exact C05_aux. Qed.
Print Assumptions C05_gauss_col_reduced.

(** The pivot function itself. *)
Theorem C05_index_pivot : forall v i, pivot_at v i <-> index_pivot v = Z.of_nat i.
Proof. exact pivot_at_index. Qed.
Print Assumptions C05_index_pivot.

Theorem C05_index_pivot_zero : forall v, index_pivot v = -1 <-> forall j, vget v j = 0.
Proof. exact index_pivot_m1. Qed.
Print Assumptions C05_index_pivot_zero.

(** ** C06 *)
Theorem C06_gauss_col_total : forall p A, wf_mat A ->
  (prime p -> reduced_mat p A -> exists R T, gauss_col A p = Ok (R, T)) /\
  gauss_col A p <> Err OutOfFuel.
Proof. exact C06_aux. Qed.
Print Assumptions C06_gauss_col_total.

Example C03_C06_case : let A := Mat 3 [[1; 4; 0]; [0; 1; 4]; [1; 0; 4]] in
  wf_mat A /\ reduced_mat 5 A /\ prime 5 /\
  gauss_col A 5 = Ok (Mat 3 [[1; 4; 0]; [0; 1; 4]; [0; 0; 0]], Mat 3 [[1; 0; 0]; [0; 1; 0]; [4; 4; 1]]).
Proof.
  split; [|split; [|split]]; try (vm_compute; reflexivity); try exact prime_5.
  - repeat constructor.
  - unfold reduced_mat, reduced_vec. cbn [cols]. repeat (constructor; try lia).
Qed.

(** ** C07 *)
Theorem C07_solve_mod_p_sound : forall p A b x, 2 <= p -> wf_mat A ->
  solve_mod_p A b p = Ok x ->
  length x = ncols A /\ reduced_vec p x /\ length b = nrows A /\
  forall i, (i < nrows A)%nat ->
    Zsum (ncols A) (fun k => get A i k * vget x k) mod p = vget b i mod p.
Proof. exact C07_aux. Qed.
Print Assumptions C07_solve_mod_p_sound.

(** ** C08 *)
Theorem C08_solve_mod_p_complete : forall p A b, prime p -> wf_mat A -> reduced_mat p A -> reduced_vec p b ->
  length b = nrows A -> (0 < nrows A)%nat ->
  (solvable p A (vget b) <-> exists x, solve_mod_p A b p = Ok x) /\
  (~ solvable p A (vget b) <-> solve_mod_p A b p = Err ValueError).
Proof. exact C08_aux. Qed.
Print Assumptions C08_solve_mod_p_complete.

(** A system without equations is not handled: the code raises [IndexError]
    although every vector is a solution. *)
Theorem C08_no_equations_refuted : exists A b p, prime p /\ wf_mat A /\ solvable p A (vget b) /\
  solve_mod_p A b p = Err IndexError.
Proof.
  exists (Mat 0 [[]]), [], 5. split; [exact prime_5|]. split; [repeat constructor|].
  split; [|vm_compute; reflexivity]. exists (fun _ => 0). cbn. intros; lia.
Qed.
Print Assumptions C08_no_equations_refuted.

Example C07_C08_case :
  solve_mod_p (Mat 2 [[1; 2]; [3; 4]]) [2; 1] 5 = Ok [0; 4] /\
  solve_mod_p (Mat 2 [[1; 2]; [2; 4]]) [1; 1] 5 = Err ValueError.
Proof. split; vm_compute; reflexivity. Qed.

(** ** C09 *)
Theorem C09_solve_matrix : forall p A B, prime p -> wf_mat A -> reduced_mat p A -> wf_mat B -> reduced_mat p B ->
  ncols B = nrows A -> (0 < nrows A)%nat ->
  (forall X, solve_matrix_mod_p A B p = Ok X ->
     nrows X = ncols A /\ ncols X = nrows B /\
     forall i j, (i < nrows A)%nat -> (j < nrows B)%nat ->
       prod_entry (ncols A) A X i j mod p = get B j i mod p) /\
  ((forall j, (j < nrows B)%nat -> solvable p A (fun i => get B j i)) ->
     exists X, solve_matrix_mod_p A B p = Ok X) /\
  (forall j, (j < nrows B)%nat -> ~ solvable p A (fun i => get B j i) ->
     solve_matrix_mod_p A B p = Err ValueError).
Proof. exact C09_aux. Qed.
Print Assumptions C09_solve_matrix.

(** The documented contract [A X = B] fails. *)
Theorem C09_documented_contract_refuted : exists A B X p, prime p /\
  solve_matrix_mod_p A B p = Ok X /\ nrows B = nrows A /\
  prod_entry (ncols A) A X 0 1 mod p <> get B 0 1 mod p.
Proof.
  exists (Mat 2 [[1; 0]; [0; 1]]), (Mat 2 [[1; 2]; [3; 4]]), (Mat 2 [[1; 3]; [2; 4]]), 5.
  split; [exact prime_5|]. split; [vm_compute; reflexivity|]. split; [reflexivity|]. vm_compute. discriminate.
Qed.
Print Assumptions C09_documented_contract_refuted.

(** ** C10 *)
Theorem C10_gauss_col_rad_sound : forall A Rd s p Red T, wf_mat A -> 2 <= p -> (ncols A <= length Rd)%nat ->
  gauss_col_rad A Rd s p = Ok (Red, T) ->
  forall j, (s <= j < ncols A)%nat ->
    (forall i, (i < nrows A)%nat -> get Red i j = 0) /\
    (forall i, (i < nrows A)%nat -> prod_entry (ncols A) A T i j mod p = 0) /\
    get T j j = 1 /\
    (forall k, k <> j -> get T k j <> 0 -> (k < s)%nat /\ nth k Rd 0 <= nth j Rd 0).
Proof. exact C10_aux. Qed.
Print Assumptions C10_gauss_col_rad_sound.

(** ** C11 *)
Theorem C11_gauss_col_rad_complete : forall A Rd s p, wf_mat A -> prime p -> (ncols A <= length Rd)%nat ->
  ((forall j, (s <= j < ncols A)%nat ->
     (forall k l i, (k < s)%nat -> (l < s)%nat -> nth k Rd 0 <= nth j Rd 0 -> nth l Rd 0 <= nth j Rd 0 ->
        pivot_at (vmod (col A k) p) i -> pivot_at (vmod (col A l) p) i ->
        vmod (col A k) p = vmod (col A l) p) /\
     exists y, (forall k, ~ ((k < s)%nat /\ nth k Rd 0 <= nth j Rd 0) -> y k = 0) /\
       forall i, (i < nrows A)%nat ->
         Zsum (ncols A) (fun k => y k * get A i k) mod p = get A i j mod p) ->
   exists Red T, gauss_col_rad A Rd s p = Ok (Red, T)) /\
  (forall e, gauss_col_rad A Rd s p = Err e -> e = RuntimeError).
Proof. exact C11_aux. Qed.
Print Assumptions C11_gauss_col_rad_complete.

Example C10_C11_case :
  let A := Mat 3 [[1; 4; 0]; [0; 1; 4]; [1; 0; 4]] in
  gauss_col_rad A [1; 2; 2] 2 5 =
    Ok (Mat 3 [[1; 4; 0]; [0; 1; 4]; [0; 0; 0]], Mat 3 [[1; 0; 0]; [0; 1; 0]; [4; 4; 1]]) /\
  gauss_col_rad A [3; 2; 2] 2 5 = Err RuntimeError.
Proof. split; vm_compute; reflexivity. Qed.

(** ** C12 *)
Theorem C12_gauss_barcodes : forall A rb cb s p, prime p -> reduced_mat p A ->
  (0 < s <= ncols A)%nat -> (ncols A <= length cb)%nat ->
  (forall X, gauss_barcodes A rb cb s p = Ok X ->
    nrows X = s /\ ncols X = (ncols A - s)%nat /\
    forall j, (s <= j < ncols A)%nat ->
      let b := fst (nth j cb (0, 0)) in
      (forall k, (k < s)%nat -> 0 <= get X k (j - s) < p) /\
      (forall k, (k < s)%nat -> ~ bar_alive cb k b -> get X k (j - s) = 0) /\
      (forall i, bar_alive rb i b ->
         Zsum s (fun k => get X k (j - s) * get A i k) mod p = get A i j mod p)) /\
  ((forall j, (s <= j < ncols A)%nat ->
      let b := fst (nth j cb (0, 0)) in
      exists y, (forall k, ~ bar_alive cb k b -> y k = 0) /\
        forall i, bar_alive rb i b -> Zsum s (fun k => y k * get A i k) mod p = get A i j mod p) <->
   exists X, gauss_barcodes A rb cb s p = Ok X) /\
  (forall e, gauss_barcodes A rb cb s p = Err e -> e = RuntimeError).
Proof. exact C12_aux. Qed.
Print Assumptions C12_gauss_barcodes.

Example C12_case :
  gauss_barcodes (Mat 3 [[1; 1; 0]; [0; 1; 1]; [1; 2; 3]]) [(0, 5); (0, 9); (3, 4)] [(0, 9); (1, 9); (4, 9)] 2 5
  = Ok (Mat 2 [[1; 1]]).
Proof. vm_compute. reflexivity. Qed.
