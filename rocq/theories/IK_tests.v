(** * The cases of test/persistence_algebra/test_image_kernel.py and test_module_persistence_homology.py on the model

    Half-integer radii are doubled. *)
From Verif Require Import Base Basis_model IK_model IK_props.
Local Open Scope Z_scope.

Definition rows (n : nat) (rs : list (list Z)) : mat := Mat (length rs) (map (fun j => map (fun r => nth j r 0) rs) (seq 0 n)).
Definition same (x : Z) := x.
Definition im_of (x : res (basis * option basis * mat)) := match x with Ok (i, _, _) => Some i | Err _ => None end.
Definition ker_of (x : res (basis * option basis * mat)) := match x with Ok (_, k, _) => k | Err _ => None end.
Definition pre_of (x : res (basis * option basis * mat)) := match x with Ok (_, _, q) => Some q | Err _ => None end.

Definition t1 := image_kernel same (plain [(1, 5); (1, 4); (2, 5)]) (plain [(0, 5); (0, 3); (1, 4)]) (rows 3 [[0; 0; 1]; [1; 0; 0]; [1; 1; 1]]) 5 0.
Example test_1 : (option_map b_coords (im_of t1), option_map b_coords (ker_of t1), pre_of t1) =
  (Some (rows 3 [[0; 0; 1]; [4; 4; 0]; [4; 0; 0]]), Some (rows 1 [[4]; [1]; [0]]), Some (rows 3 [[4; 4; 0]; [0; 1; 4]; [0; 0; 1]])).
Proof. vm_compute. reflexivity. Qed.

Definition t2 := image_kernel same (plain [(2, 16); (2, 10); (4, 10); (8, 16)]) (plain [(-2, 6); (0, 8); (0, 7); (4, 10); (4, 8); (6, 16)])
  (rows 4 [[4; 1; 1; 0]; [1; 4; 1; 0]; [1; 1; 4; 0]; [0; 0; 1; 4]; [0; 0; 4; 1]; [0; 0; 0; 1]]) 5 0.
Example test_2 : (option_map b_coords (im_of t2), option_map b_coords (ker_of t2), pre_of t2) =
  (Some (rows 4 [[4; 0; 1; 0]; [1; 0; 1; 0]; [1; 2; 4; 0]; [0; 0; 1; 4]; [0; 0; 4; 1]; [0; 0; 0; 1]]),
   Some (rows 2 [[1; 0]; [1; 4]; [0; 0]; [0; 0]]), Some (rows 4 [[1; 1; 0; 0]; [0; 1; 0; 0]; [0; 0; 1; 0]; [0; 0; 0; 1]])).
Proof. vm_compute. reflexivity. Qed.
(** The documentation (image_kernel.py:85-89) gives the bar [1, 4) for the first generator, which is the bar of the
    image; the code returns [1, 5).  The test does not look at the bars. *)
Example test_2_bars : option_map b_bars (im_of t2) = Some [(2, 10); (2, 7); (4, 10); (8, 16)].
Proof. vm_compute. reflexivity. Qed.

Definition t3 := image_kernel same (plain [(0, 4); (0, 2); (1, 4); (1, 3)]) (plain [(0, 3); (0, 2); (0, 2)])
  (rows 4 [[0; 0; 0; 1]; [4; 0; 1; 3]; [1; 0; 1; 4]]) 5 0.
Example test_3 : (option_map b_bars (im_of t3), option_map b_bars (ker_of t3), pre_of t3) =
  (Some [(0, 2); (1, 3); (1, 2)], Some [(0, 2); (2, 4); (2, 4)], Some (rows 3 [[1; 2; 4]; [0; 0; 0]; [0; 4; 1]; [0; 1; 0]])).
Proof. vm_compute. reflexivity. Qed.

Definition t4 := image_kernel same (plain [(1, 4); (2, 4); (3, 5)]) (plain [(0, 4); (0, 2); (1, 4); (1, 3)])
  (rows 3 [[0; 1; 1]; [1; 0; 0]; [0; 4; 1]; [0; 0; 0]]) 5 0.
Example test_4 : (option_map b_bars (im_of t4), option_map b_bars (ker_of t4)) =
  (Some [(1, 2); (2, 4); (3, 4)], Some [(2, 4); (4, 5)]).
Proof. vm_compute. reflexivity. Qed.

Definition t5 := image_kernel same (plain [(0, 4); (0, 2); (1, 4); (1, 3)]) (plain [(0, 3); (0, 2); (0, 2)])
  (rows 4 [[0; 0; 0; 1]; [4; 0; 1; 3]; [1; 0; 1; 4]]) 5 1.
Example test_5 : (option_map b_bars (im_of t5), ker_of t5, pre_of t5) =
  (Some [(1, 3); (1, 2)], None, Some (rows 2 [[0; 0]; [4; 1]; [1; 0]])).
Proof. vm_compute. reflexivity. Qed.

Definition t8 := image_kernel same (plain [(5, 10); (0, 10); (2, 8); (4, 6)]) (plain [(0, 10); (2, 8); (4, 6)])
  (rows 4 [[1; 1; 0; 0]; [1; 0; 1; 0]; [1; 0; 0; 1]]) 5 1.
Example test_8 : (option_map b_bars (im_of t8), option_map b_coords (im_of t8)) =
  (Some [(0, 8); (2, 6); (4, 5)], Some (rows 3 [[1; 1; 1]; [0; 1; 1]; [0; 0; 1]])).
Proof. vm_compute. reflexivity. Qed.

Definition t9 := image_kernel same (plain [(1, 8); (2, 8); (3, 5)]) (plain [(0, 5); (1, 8); (2, 5)])
  (rows 3 [[1; 0; -1]; [1; -1; 0]; [0; 1; -1]]) 5 0.
Example test_9 : (option_map (fun b => (b_bars b, b_coords b)) (im_of t9), option_map (fun b => (b_bars b, b_coords b)) (ker_of t9), pre_of t9) =
  (Some ([(1, 8); (2, 5)], rows 2 [[1; 1]; [1; 0]; [0; 1]]), Some ([(3, 8)], rows 1 [[1]; [1]; [1]]), Some (rows 2 [[1; 1]; [0; 1]; [0; 0]])).
Proof. vm_compute. reflexivity. Qed.

Definition tm := module_persistence_homology same
  [rows 0 []; rows 4 [[0; 0; 0; 1]; [4; 0; 1; 3]; [1; 0; 1; 4]]; rows 3 [[0; 1; 1]; [1; 0; 0]; [0; 4; 1]; [0; 0; 0]]]
  [plain [(0, 3); (0, 2); (0, 2)]; plain [(0, 4); (0, 2); (1, 4); (1, 3)]; plain [(1, 4); (2, 4); (3, 5)]] 5.
Example test_module : match tm with Ok (Hom, _, PreIm) => Some (map b_bars Hom, PreIm) | Err _ => None end =
  Some ([[(0, 1); (0, 1)]; [(0, 1); (2, 3)]; [(2, 4); (4, 5)]],
        [None; Some (rows 3 [[1; 2; 4]; [0; 0; 0]; [0; 4; 1]; [0; 1; 0]]); Some (rows 3 [[1; 0; 0]; [0; 1; 1]; [0; 0; 1]])]).
Proof. vm_compute. reflexivity. Qed.
