(** * Model of [permaviss/sample_point_clouds/examples.py], [take_sample] *)
From Verif Require Import Base PH_model.
Local Open Scope Z_scope.

(** examples.py:36 and 39: Python's index [k] into a sequence of length [n], negative indices counting from the end. *)
Definition py_index (n : nat) (k : Z) : res nat :=
  if (- Z.of_nat n <=? k) && (k <? Z.of_nat n)
  then Ok (Z.to_nat (if k <? 0 then k + Z.of_nat n else k)) else Err IndexError.

(** examples.py:38, [np.setdiff1d(range(n), sel)]. *)
Definition not_selected (n : nat) (sel : list Z) : list nat :=
  filter (fun i => negb (memz (Z.of_nat i) sel)) (seq 0 n).

(** examples.py:39-40: [np.min] and [np.argmax] (the first of the largest entries) of a 1-D array. *)
Definition np_min (l : list Z) : res Z :=
  match l with [] => Err ValueError | x :: l' => Ok (fold_left Z.min l' x) end.
Fixpoint argmax_from (best : Z) (besti i : nat) (l : list Z) : nat :=
  match l with
  | [] => besti
  | x :: l' => if best <? x then argmax_from x i (S i) l' else argmax_from best besti (S i) l'
  end.
Definition np_argmax (l : list Z) : res nat :=
  match l with [] => Err ValueError | x :: l' => Ok (argmax_from x 0 1 l') end.

(** examples.py:37-42, one iteration; the state is [selection] and [point_selection]. *)
Definition sample_step {P} (pts : list P) (Dist : mat) (st : list Z * list P) (_ : nat) : res (list Z * list P) :=
  let '(selection, point_selection) := st in
  let n := length pts in
  let ns := not_selected n selection in
  js <- mapM (py_index n) selection ;;
  rest_Dist <- mapM (fun i => np_min (map (get Dist i) js)) ns ;;
  a <- np_argmax rest_Dist ;;
  let k := nth a ns 0%nat in
  pt <- nth_err pts k ;;
  Ok (selection ++ [Z.of_nat k], point_selection ++ [pt]).

(** examples.py:6-44, [take_sample].  [Dist] is the matrix of distances (line 33; the code only compares its entries);
    [draw] is [int(np.random.rand() * no_points)], a number between 0 and [no_points - 1]. *)
Definition take_sample {P} (pts : list P) (Dist : mat) (no_samples : Z) (draw : Z) : res (list P) :=
  let n := length pts in
  let no_samples := Z.min (Z.of_nat n) no_samples in
  let k := draw - 1 in
  i <- py_index n k ;;
  pt <- nth_err pts i ;;
  '(_, out) <- foldM (sample_step pts Dist) (seq 0 (Z.to_nat (no_samples - 1))) ([k], [pt]) ;;
  Ok out.
