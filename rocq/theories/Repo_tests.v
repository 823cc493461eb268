(** * The remaining unit tests of /repo/test that need neither data files nor random numbers, on the model

    Distances between points are replaced by their squares, after scaling the coordinates to integers; the order of the
    distances, which is all that the code looks at, is the same. *)
From Coq Require Import QArith.
From Verif Require Import Base SortX Gauss_model Basis_model PH_model Simp_model Cover_model.
Local Open Scope Z_scope.

Definition rows (n : nat) (rs : list (list Z)) : mat := Mat (length rs) (map (fun j => map (fun r => nth j r 0) rs) (seq 0 n)).
Definition sqdist (X : list (Z * Z)) : list (list Z) :=
  map (fun a => map (fun b => (fst a - fst b) * (fst a - fst b) + (snd a - snd b) * (snd a - snd b)) X) X.

(** ** test/gauss_mod_p/test_arithmetic_mod_p.py *)
Example test_add_mod_c : add_mod_c 4 3 5 = 2.
Proof. reflexivity. Qed.
Example test_add_arrays_mod_c : add_arrays_mod_c [1; 2; 3] [4; 0; 4] 3 = [2; 2; 1].
Proof. reflexivity. Qed.
Example test_inv_mod_p : (inv_mod_p 2 7, inv_mod_p 9 5) = (Ok 4, Ok 4).
Proof. reflexivity. Qed.

(** ** test/gauss_mod_p/test_functions.py *)
Example test_multiply_mod_p :
  (multiply_mod_p (rows 2 [[2; 3]; [4; 5]]) (rows 2 [[1; 1]; [2; 3]]) 5,
   multiply_mod_p (rows 2 [[1; 0]; [1; 1]]) (rows 2 [[1; 1]; [0; 1]]) 2,
   multiply_mod_p (rows 3 [[1; 1; 1]; [0; 1; 1]; [0; 0; 1]]) (rows 1 [[1]; [1]; [1]]) 5) =
  (rows 2 [[3; 1]; [4; 4]], rows 2 [[1; 1]; [1; 0]], rows 1 [[3]; [2]; [1]]).
Proof. reflexivity. Qed.
Definition solve_A : mat := rows 4 [[1; 1; 1; 0]; [0; 4; 0; 1]; [0; 0; 4; 0]; [0; 0; 0; 4]].
Example test_solve_mod_p : solve_mod_p solve_A [0; 0; 1; 4] 5 = Ok [0; 1; 4; 1].
Proof. reflexivity. Qed.
Example test_solve_matrix_mod_p :
  solve_matrix_mod_p solve_A (rows 4 [[0; 0; 1; 4]; [4; 0; 0; 3]]) 5 = Ok (Mat 4 [[0; 1; 4; 1]; [2; 2; 0; 2]]).
Proof. reflexivity. Qed.

(** ** test/gauss_mod_p/test_gauss_mod_p.py *)
Example test_gauss_col_1 : gauss_col (rows 3 [[0; 1; 1]; [1; 1; 0]; [1; 1; 0]]) 2 =
  Ok (rows 3 [[0; 1; 0]; [1; 0; 0]; [1; 0; 0]], rows 3 [[1; 1; 1]; [0; 1; 1]; [0; 0; 1]]).
Proof. reflexivity. Qed.
Example test_gauss_col_2 : gauss_col (rows 4 [[2; 1; 0; 1]; [3; 1; 2; 3]; [4; 1; 4; 3]; [2; 1; 1; 0]]) 5 =
  Ok (rows 4 [[2; 0; 4; 3]; [3; 2; 2; 0]; [4; 4; 0; 0]; [2; 0; 0; 0]],
      rows 4 [[1; 2; 1; 4]; [0; 1; 2; 4]; [0; 0; 1; 3]; [0; 0; 0; 1]]).
Proof. reflexivity. Qed.

(** ** test/simplicial_complexes *)
Example test_flag_complex : flag_complex [(0, 1); (0, 2); (0, 3); (1, 2); (1, 3); (2, 3)]%nat 4 4 =
  Ok (4, [[[0; 1]; [0; 2]; [0; 3]; [1; 2]; [1; 3]; [2; 3]]; [[0; 1; 2]; [0; 1; 3]; [0; 2; 3]; [1; 2; 3]]; [[0; 1; 2; 3]]; []])%nat.
Proof. reflexivity. Qed.

Example test_vietoris_rips : vietoris_rips stable_argsort (sqdist [(0, 0); (1, 0); (0, 1); (1, 1)]) 16 4 =
  Ok (4%nat, [[[0; 1]; [0; 2]; [1; 3]; [2; 3]; [1; 2]; [0; 3]]; [[0; 1; 3]; [0; 2; 3]; [1; 2; 3]; [0; 1; 2]]; [[0; 1; 2; 3]]; []]%nat,
      [[0; 0; 0; 0]; [1; 1; 1; 1; 2; 2]; [2; 2; 2; 2]; [2]; []]).
Proof. reflexivity. Qed.

(** test_differentials.py; coordinates times 10^8. *)
Definition diff_X : list (Z * Z) :=
  [(191580552, 57418571); (-72993636, 186203999); (197700111, 30243449); (199699445, 10960461); (-158839255, 121532264)].
Definition diff_out : res (nat * list mat) :=
  '(n0, Cs, _) <- vietoris_rips stable_argsort (sqdist diff_X) (300000000 * 300000000) 4 ;; complex_differentials n0 Cs 5.
Example test_differentials : match diff_out with
  | Ok (_, [D1; D2; D3; _]) => (ncols D1, ncols D2, ncols D3, mmod (mmul D1 D2) 5, mmod (mmul D2 D3) 5) =
      (5%nat, 1%nat, 0%nat, mzero 5 1, mzero 5 0)
  | _ => False
  end.
Proof. vm_compute. reflexivity. Qed.

(** ** test/persistence_algebra/test_barcode_bases.py; radii times 20. *)
Definition bars_out : res (basis * list nat) := b <- plain_basis [(20, 40); (20, 80); (-5, 100); (2, 20)] ;; b_sort (fun x => x) b.
Example test_barcode_basis : match bars_out with
  | Ok (b, order) => isort Nat.leb order = seq 0 4 /\ b_bars b = [(-5, 100); (2, 20); (20, 80); (20, 40)] /\
      active b 22 = Ok [0; 2; 3]%nat /\ birth b 20 = Ok [2; 3]%nat /\ death b 80 = Ok [2]%nat /\
      changes_list b = [-5; 2; 20; 40; 80; 100]
  | Err _ => False
  end.
Proof. vm_compute. repeat split. Qed.

(** ** test/persistence_algebra/test_PH_classic.py; the coordinates of the first case times 5. *)
Definition ph_X : list (Z * Z) :=
  [(0, 0); (0, 5); (0, 10); (5, 0); (5, 10); (10, 0); (10, 2); (10, 8); (10, 10); (15, 0); (15, 10); (20, 0); (20, 5); (20, 10)].
Example test_two_bars : match local_homology stable_argsort (fun x => x) (sqdist ph_X) (12 * 12) 3 5 with
  | Ok (_, _, out) => option_map b_bars (nth_error (ph_hom out) 1) = Some [(25, 100); (36, 100)]
  | Err _ => False
  end.
Proof. vm_compute. reflexivity. Qed.

Example test_four_points : match local_homology stable_argsort (fun x => x) (sqdist [(0, 0); (1, 0); (0, 1); (1, 1)]) 4 3 5 with
  | Ok (_, _, out) => option_map b_coords (nth_error (ph_im out) 1) =
        Some (rows 3 [[1; 4; 0]; [0; 1; 0]; [1; 4; 4]; [0; 1; 1]; [0; 0; 1]; [4; 0; 0]]) /\
      nth_error (ph_preim out) 2 = Some (rows 3 [[1; 4; 0]; [0; 1; 0]; [0; 0; 1]; [0; 0; 0]])
  | Err _ => False
  end.
Proof. vm_compute. split; reflexivity. Qed.

(** ** test/covers/test_cubicalCover.py *)
Example test_next_hypercube : next_hypercube [1; 1] [3; 2] = [2; 0].
Proof. reflexivity. Qed.

Definition qs (l : list Z) : list Q := map (fun z => z # 2)%Q l.
Definition qeqs (u v : list Q) : bool := Nat.eqb (length u) (length v) && forallb (fun x => Qeq_bool (fst x) (snd x)) (combine u v).
Example test_corners_hypercube :
  match corners_hypercube 3 (map qs [[0; 0; 0]; [0; -2; 2]; [2; 2; 0]; [4; 2; -1]]),
        corners_hypercube 2 (map qs [[0; 0]; [2; 2]; [2; -20]; [1; 1]]) with
  | Ok (lo, hi), Ok (lo', hi') => (qeqs lo (qs [0; -2; -1]) && qeqs hi (qs [4; 2; 2]) && qeqs lo' (qs [0; -20]) && qeqs hi' (qs [2; 2]))%bool
  | _, _ => false
  end = true.
Proof. vm_compute. reflexivity. Qed.

Example test_nerve_hypercube_cover : match nerve_hypercube_cover [2; 3] with
  | Ok (n, levels) => n = 6%nat /\ firstn 3 levels =
      [[[0; 1]; [1; 2]; [0; 3]; [1; 3]; [0; 4]; [1; 4]; [2; 4]; [3; 4]; [1; 5]; [2; 5]; [4; 5]];
       [[0; 1; 3]; [0; 1; 4]; [1; 2; 4]; [0; 3; 4]; [1; 3; 4]; [1; 2; 5]; [1; 4; 5]; [2; 4; 5]];
       [[0; 1; 3; 4]; [1; 2; 4; 5]]]%nat
  | Err _ => False
  end.
Proof. vm_compute. split; reflexivity. Qed.

Definition grid_3 : list point := map (fun u => map inject_Z [fst u; snd u]) (list_prod [-1; 0; 1] [-1; 0; 1]).
(** The expected lists of intersections follow the nerve: the test lists them in the order 01, 02, 03, 12, 13, 23, and
    the nerve as 01, 02, 12, 03, 13, 23; the intersections 03 and 12 are equal. *)
Definition cover_in : list (list (list nat)) :=
  [[[0; 1; 3; 4]; [1; 2; 4; 5]; [3; 4; 6; 7]; [4; 5; 7; 8]]; [[1; 4]; [3; 4]; [4]; [4]; [4; 5]; [4; 7]]; [[4]; [4]; [4]; [4]]; [[4]]]%nat.
Example test_generate_cover : match generate_cover (fun q => q) 2 (1 # 2) 2 grid_3 with
  | Ok (pts, ins, (n, levels)) => firstn 4 ins = cover_in /\
      firstn 4 pts = map (map (map (fun i => nth i grid_3 []))) cover_in /\
      n = 4%nat /\ firstn 3 levels =
      [[[0; 1]; [0; 2]; [1; 2]; [0; 3]; [1; 3]; [2; 3]]; [[0; 1; 2]; [0; 1; 3]; [0; 2; 3]; [1; 2; 3]]; [[0; 1; 2; 3]]]%nat
  | Err _ => False
  end.
Proof. vm_compute. repeat split. Qed.

(** ** Examples of the documentation *)

(** barcode_bases.py:68-105 *)
Definition doc_base1 : res basis := mk_basis false [(0, 2); (0, 1); (2, 3); (2, 2)] None no_coords true false None.
Example doc_well_defined : match doc_base1 with
  | Ok b => b_dim b = 3%nat /\ b_wd b = Some [true; true; true; false] /\ b_bars b = [(0, 2); (0, 1); (2, 3)] /\
      changes_list b = [0; 1; 2; 3]
  | Err _ => False
  end.
Proof. vm_compute. repeat split. Qed.
Example doc_coordinates : match (b1 <- doc_base1 ;; mk_basis false [(0, 2); (2, 3)] (Some b1) (rows 2 [[1; 0]; [1; 0]; [0; 2]]) false false None) with
  | Ok b => b_dim b = 2%nat /\ b_bars b = [(0, 2); (2, 3)] /\ b_coords b = rows 2 [[1; 0]; [1; 0]; [0; 2]]
  | Err _ => False
  end.
Proof. vm_compute. repeat split. Qed.
(** [active(1.2)] at barcode_bases.py:283, radii times 10 *)
Example doc_broken : match mk_basis false [(0, 20); (0, 10); (10, 30)] None no_coords false true (Some (rows 3 [[0; 0; 0]; [0; 0; 0]; [0; 1; 0]])) with
  | Ok b => b_dim b = 3%nat /\ active b 12 = Ok [0; 2]%nat
  | Err _ => False
  end.
Proof. vm_compute. repeat split. Qed.
(** barcode_bases.py:199-217, 309, 333 *)
Example doc_sort : match (b <- plain_basis [(1, 2); (0, 4); (-1, 3); (1, 4)] ;; b_sort (fun x => x) b) with
  | Ok (b, order) => order = [2; 1; 3; 0]%nat /\ b_bars b = [(-1, 3); (0, 4); (1, 4); (1, 2)] /\
      birth b 1 = Ok [2; 3]%nat /\ death b 4 = Ok [1; 2]%nat
  | Err _ => False
  end.
Proof. vm_compute. repeat split. Qed.

(** PH_classic.py:54-143: ten points on a circle.  The ten edges have the same length up to rounding; the order printed
    in the documentation is 01, 12, 23, 34, 56, 78, 45, 67, 89, 09, which is given as the order of [np.argsort]. *)
Definition circle_dist : list (list Z) := map (fun i => map (fun j =>
  if Nat.eqb i j then 0 else if Nat.eqb ((i + 1) mod 10) j || Nat.eqb ((j + 1) mod 10) i then 61803399 else 117557050) (seq 0 10)) (seq 0 10).
Definition circle_sort (l : list Z) : list nat := if Nat.eqb (length l) 10 then [0; 1; 2; 3; 5; 7; 4; 6; 9; 8]%nat else seq 0 (length l).
Example doc_circle : match local_homology circle_sort (fun x => x) circle_dist 100000000 3 5 with
  | Ok (_, _, PhOut (h0 :: h1 :: _) (i0 :: i1 :: _) (q0 :: q1 :: _)) =>
      b_bars h0 = (0, 100000000) :: repeat (0, 61803399) 9 /\
      b_coords h0 = rows 10 [[1; 1; 0; 0; 0; 0; 0; 0; 0; 0]; [0; 4; 1; 0; 0; 0; 0; 0; 0; 0]; [0; 0; 4; 1; 0; 0; 0; 0; 0; 0];
        [0; 0; 0; 4; 1; 0; 0; 0; 0; 0]; [0; 0; 0; 0; 4; 0; 0; 1; 0; 0]; [0; 0; 0; 0; 0; 1; 0; 4; 0; 0]; [0; 0; 0; 0; 0; 4; 0; 0; 1; 0];
        [0; 0; 0; 0; 0; 0; 1; 0; 4; 0]; [0; 0; 0; 0; 0; 0; 4; 0; 0; 1]; [0; 0; 0; 0; 0; 0; 0; 0; 0; 4]] /\
      b_bars h1 = [(61803399, 100000000)] /\ b_coords h1 = Mat 10 [[4; 4; 4; 4; 4; 4; 4; 4; 4; 1]] /\
      b_bars i0 = repeat (61803399, 100000000) 9 /\ b_coords i0 = Mat 10 (tl (cols (b_coords h0))) /\
      b_bars i1 = [] /\ q1 = Mat 10 (map (vunit 10) (seq 0 9))
  | _ => False
  end.
Proof. vm_compute. repeat split. Qed.

(** cubical_cover.py:25-29, 76-112, 219-230, 262-291 and 361-365; coordinates times 10^8 *)
Example doc_next_hypercube : next_hypercube [1; 1; 1] [3; 3; 2] = [1; 2; 0].
Proof. reflexivity. Qed.
Definition circle_5 : list point := map (map inject_Z)
  [[100000000; 0]; [30901699; 95105652]; [-80901699; 58778525]; [-80901699; -58778525]; [30901699; -95105652]].
Definition doc_in : list (list (list nat)) := [[[3; 4]; [1; 2]; [0; 4]; [0; 1]]; [[]; [4]; []; []; [1]; [0]]]%nat.
Example doc_generate_cover : match generate_cover (fun q => q) 2 (inject_Z 50000000) 2 circle_5 with
  | Ok (pts, ins, (n, levels)) => firstn 2 ins = doc_in /\ firstn 2 pts = map (map (map (fun i => nth i circle_5 []))) doc_in /\
      n = 4%nat /\ firstn 3 levels =
      [[[0; 1]; [0; 2]; [1; 2]; [0; 3]; [1; 3]; [2; 3]]; [[0; 1; 2]; [0; 1; 3]; [0; 2; 3]; [1; 2; 3]]; [[0; 1; 2; 3]]]%nat
  | Err _ => False
  end.
Proof. vm_compute. repeat split. Qed.
Example doc_corners : corners_hypercube 2 (map (map inject_Z)
    [[-30392908; -40559307]; [47360510; -28257937]; [-41760472; -30445089]; [-2406966; 145500]; [-28425041; -11212227]]) =
  Ok (map inject_Z [-41760472; -40559307], map inject_Z [47360510; 145500]).
Proof. vm_compute. reflexivity. Qed.
Example doc_nerve : match nerve_hypercube_cover [1; 3; 2] with
  | Ok (n, levels) => n = 6%nat /\ firstn 4 levels =
      [[[0; 1]; [0; 2]; [1; 2]; [0; 3]; [1; 3]; [2; 3]; [2; 4]; [3; 4]; [2; 5]; [3; 5]; [4; 5]];
       [[0; 1; 2]; [0; 1; 3]; [0; 2; 3]; [1; 2; 3]; [2; 3; 4]; [2; 3; 5]; [2; 4; 5]; [3; 4; 5]];
       [[0; 1; 2; 3]; [2; 3; 4; 5]]; []]%nat
  | Err _ => False
  end.
Proof. vm_compute. split; reflexivity. Qed.
Example doc_intersection : intersection_covers [[0; 3; 5]; [0; 1]; [1; 5]]%nat [0; 1]%nat = Ok [0%nat].
Proof. reflexivity. Qed.
