(** * Model of [permaviss/simplicial_complexes]: [vietoris_rips.py],
    [flag_complex.py] and [differentials.py].

    Vertices are natural numbers and a simplex is a row of a numpy array, here
    [list nat].  A complex [C] is a pair of the vertex count [C[0]] and the list
    of the arrays [C[1], C[2], ...]. *)
From Verif Require Import Base SortX PH_model.
Local Open Scope Z_scope.

Notation simplex := (list nat).

(** A loop whose body appends any number of items to a list. *)
Definition flat_mapM {A B} (f : A -> res (list B)) (l : list A) : res (list B) :=
  ls <- mapM f l ;; Ok (concat ls).

(** [Dist[i][j]] *)
Definition dist_at (Dist : list (list Z)) (i j : nat) : res Z :=
  row <- nth_err Dist i ;; nth_err row j.

(** [l[idx]] for an integer array [idx], with numpy's bounds check. *)
Definition take_err {A} (l : list A) (idx : list nat) : res (list A) := mapM (nth_err l) idx.

(** [np.unique], [np.intersect1d] and [np.setdiff1d] on arrays of vertices. *)
Definition nunique (l : list nat) : list nat := nodup Nat.eq_dec (isort Nat.leb l).
Definition intersect1d (a b : list nat) : list nat := filter (fun x => memn x b) (nunique a).
Definition setdiff1d (a b : list nat) : list nat := filter (fun x => negb (memn x b)) (nunique a).

(** ** vietoris_rips.py *)

(** vietoris_rips.py:8-31, [_lower_neighbours]; the rows of [G] are pairs. *)
Definition lower_neighbours (G : list (nat * nat)) (u : nat) : list nat :=
  isort Nat.leb (map fst (filter (fun e => Nat.eqb (snd e) u) G)).

(** vietoris_rips.py:72-76: the edges [[j, i]] with their length. *)
Definition vr_edges (Dist : list (list Z)) (max_r : Z) : res (list ((nat * nat) * Z)) :=
  flat_mapM (fun i => flat_mapM (fun j =>
    x <- dist_at Dist i j ;;
    Ok (if x <? max_r then [((j, i), x)] else [])) (seq 0 i)) (seq 0 (length Dist)).

(** vietoris_rips.py:79-82 and 105-108: simplices and radii are reordered by
    [np.argsort] of the radii.  The parallel arrays [C[d]] and [R[d]] are kept as one
    list of pairs; [argsort] is an oracle (numpy's default sort is not stable). *)
Definition vr_sort {A} (argsort : list Z -> list nat) (l : list (A * Z)) : res (list (A * Z)) :=
  take_err l (argsort (map snd l)).

(** vietoris_rips.py:90-93 *)
Definition common_lower (G : list (nat * nat)) (s : simplex) : res (list nat) :=
  match s with
  | [] => Err IndexError
  | u :: vs => Ok (fold_left (fun low_n v => filter (fun n => memn n (lower_neighbours G v)) low_n) vs
                             (lower_neighbours G u))
  end.

(** vietoris_rips.py:96-99: radius of the simplex [n :: s]. *)
Definition cone_rad (Dist : list (list Z)) (s : simplex) (rad : Z) (n : nat) : res Z :=
  foldM (fun simplex_rad v => x <- dist_at Dist v n ;; Ok (if simplex_rad <? x then x else simplex_rad)) s rad.

(** vietoris_rips.py:87-102: all simplices of dimension [d+1] from those of dimension [d]. *)
Definition vr_cone (Dist : list (list Z)) (G : list (nat * nat)) (Cd : list (simplex * Z))
  : res (list (simplex * Z)) :=
  flat_mapM (fun sr =>
    low_n <- common_lower G (fst sr) ;;
    mapM (fun n => rad <- cone_rad Dist (fst sr) (snd sr) n ;; Ok (n :: fst sr, rad)) low_n) Cd.

(** vietoris_rips.py:85-108, the loop over [d]: [k] more levels above [Cd]. *)
Fixpoint vr_levels (argsort : list Z -> list nat) (Dist : list (list Z)) (G : list (nat * nat))
    (k : nat) (Cd : list (simplex * Z)) : res (list (list (simplex * Z))) :=
  match k with
  | O => Ok []
  | S k' =>
      l <- vr_cone Dist G Cd ;;
      Cd' <- vr_sort argsort l ;;
      rest <- vr_levels argsort Dist G k' Cd' ;;
      Ok (Cd' :: rest)
  end.

Definition edge_simplex (e : (nat * nat) * Z) : simplex * Z := ([fst (fst e); snd (fst e)], snd e).

(** vietoris_rips.py:34-114, [vietoris_rips]: returns [C[0]], [C[1..]] and [R]. *)
Definition vietoris_rips (argsort : list Z -> list nat) (Dist : list (list Z)) (max_r max_dim : Z)
  : res (nat * list (list simplex) * list (list Z)) :=
  let max_dim := Z.to_nat (if max_dim <? 1 then 1 else max_dim) in
  E0 <- vr_edges Dist max_r ;;
  E <- vr_sort argsort E0 ;;
  let C1 := map edge_simplex E in
  rest <- vr_levels argsort Dist (map fst E) (max_dim - 1) C1 ;;
  Ok (length Dist, map (map fst) (C1 :: rest), repeat 0 (length Dist) :: map (map snd) (C1 :: rest)).

(** ** flag_complex.py *)

(** flag_complex.py:10-32, [_lower_neighbours]. *)
Definition fl_lower (G : list (nat * nat)) (u : nat) : list nat :=
  nunique (map (fun e => Nat.min (fst e) (snd e))
               (filter (fun e => Nat.eqb (Nat.max (fst e) (snd e)) u) G)).

(** flag_complex.py:76-78 *)
Definition fl_common (G : list (nat * nat)) (s : simplex) : res (list nat) :=
  match s with
  | [] => Err IndexError
  | u :: vs => Ok (fold_left (fun N v => intersect1d N (fl_lower G v)) vs (fl_lower G u))
  end.

(** flag_complex.py:75-88: one row [n, simplex] per common lower neighbour. *)
Definition fl_step (G : list (nat * nat)) (Cd : list simplex) : res (list simplex) :=
  flat_mapM (fun s => N <- fl_common G s ;; Ok (map (fun n => n :: s) N)) Cd.

(** flag_complex.py:74-88, the loop over [d]: [k] more levels above [Cd]. *)
Fixpoint fl_levels (G : list (nat * nat)) (k : nat) (Cd : list simplex) : res (list (list simplex)) :=
  match k with
  | O => Ok []
  | S k' => Cd' <- fl_step G Cd ;; rest <- fl_levels G k' Cd' ;; Ok (Cd' :: rest)
  end.

(** flag_complex.py:38-90, [flag_complex]. *)
Definition flag_complex (G : list (nat * nat)) (no_vertices : nat) (max_dim : Z)
  : res (nat * list (list simplex)) :=
  if max_dim <? 0 then Err ValueError
  else if max_dim =? 0 then Ok (no_vertices, [])
  else
    let C1 := map (fun e => [fst e; snd e]) G in
    rest <- fl_levels G (Z.to_nat max_dim - 1) C1 ;;
    Ok (no_vertices, C1 :: rest).

(** ** differentials.py *)

(** differentials.py:31-33, the column of the edge [c]. *)
Definition edge_column (n0 : nat) (p : Z) (c : simplex) : res vec :=
  c0 <- nth_err c 0 ;;
  col0 <- (if Nat.ltb c0 n0 then Ok (list_set (vzero n0) c0 1) else Err IndexError) ;;
  c1 <- nth_err c 1 ;;
  if Nat.ltb c1 n0 then Ok (list_set col0 c1 (p - 1)) else Err IndexError.

(** [np.searchsorted(s, x)], defined by numpy for increasing [s] only. *)
Definition searchsorted (s : list nat) (x : nat) : nat := length (filter (fun y => Nat.ltb y x) s).

(** differentials.py:45-52, the entry of [D[d]] in the row of [c] and column of [s]. *)
Definition face_entry (d : nat) (p : Z) (s c : simplex) : res Z :=
  if Nat.eqb (length (intersect1d c s)) d then
    face_idx <- nth_err (setdiff1d s c) 0 ;;
    Ok (((-1) ^ Z.of_nat (searchsorted s face_idx)) mod p)
  else Ok 0.

(** differentials.py:41-52, the matrix [D[d]] from [Cd1 = C[d-1]] and [Cd = C[d]]. *)
Definition diff_matrix (d : nat) (p : Z) (Cd1 Cd : list simplex) : res mat :=
  columns <- mapM (fun s => mapM (face_entry d p s) Cd1) Cd ;;
  Ok (Mat (length Cd1) columns).

(** differentials.py:36-52, the loop over [d]: matrices [D[d], D[d+1], ...] for the levels
    [Cs = C[d], C[d+1], ...]. *)
Fixpoint diff_levels (d : nat) (p : Z) (Cd1 : list simplex) (Cs : list (list simplex)) : res (list mat) :=
  match Cs with
  | [] => Ok []
  | Cd :: Cs' =>
      D <- diff_matrix d p Cd1 Cd ;;
      rest <- diff_levels (S d) p Cd Cs' ;;
      Ok (D :: rest)
  end.

(** differentials.py:8-54, [complex_differentials]: returns [D[0]] and [D[1], D[2], ...].
    A complex without [C[1]] raises [IndexError]. *)
Definition complex_differentials (n0 : nat) (Cs : list (list simplex)) (p : Z) : res (nat * list mat) :=
  match Cs with
  | [] => Err IndexError
  | C1 :: Cs' =>
      columns <- mapM (edge_column n0 p) C1 ;;
      rest <- diff_levels 2 p C1 Cs' ;;
      Ok (n0, Mat n0 columns :: rest)
  end.

(** ** MV_spectral_seq.py:328-338, the computation of [local_persistent_homology] from the
    distance matrix on ([scipy]'s [pdist] is outside the model). *)
Definition local_homology (argsort : list Z -> list nat) (rnd : Z -> Z) (Dist : list (list Z)) (max_r max_dim p : Z)
  : res (list (list simplex) * list mat * ph_out) :=
  '(n0, Cs, R) <- vietoris_rips argsort Dist max_r max_dim ;;
  '(n0', Ds) <- complex_differentials n0 Cs p ;;
  out <- persistent_homology rnd n0' Ds R max_r p ;;
  Ok (Cs, Ds, out).

(** A concrete stable argsort, for examples. *)
Definition stable_argsort (l : list Z) : list nat :=
  isort (fun i j => nth i l 0 <=? nth j l 0) (seq 0 (length l)).
