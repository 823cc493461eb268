(** * Model of [permaviss/covers/cubical_cover.py].

    Coordinates, sides and overlaps are exact rationals instead of doubles.  A point cloud is a
    list of rows, all of length [dim = np.size(point_cloud, 1)]. *)
From Verif Require Import Base PH_model Simp_model.
From Coq Require Import QArith Qround Qabs.
Local Open Scope Z_scope.

(** ** Positions in the grid *)

(** cubical_cover.py:32-37 and 329-334, the loop of the two odometers.  The lists are reversed
    because the code indexes with [-i-1]; [pre] entries have already been passed over.  The first
    entry below its [top] is incremented and the entries passed over are reset to [lo]; [None] if
    there is no such entry. *)
Fixpoint odometer (lo : Z) (pre : nat) (rpos rtop : list Z) : option (list Z) :=
  match rpos, rtop with
  | x :: rpos', t :: rtop' =>
      if x <? t then Some (repeat lo pre ++ (x + 1) :: rpos') else odometer lo (S pre) rpos' rtop'
  | _, _ => None
  end.

Definition advance (lo : Z) (top pos : list Z) : list Z :=
  match odometer lo 0 (rev pos) (rev top) with Some r => rev r | None => pos end.

(** cubical_cover.py:10-37, [next_hypercube]; the in-place update is returned. *)
Definition next_hypercube (pos div : list Z) : list Z := advance 0 (map (fun d => d - 1) div) pos.

(** cubical_cover.py:123-128 and 296-298 *)
Definition number_hypercubes (div : list Z) : Z := fold_left Z.mul div 1.

(** ** The nerve *)

(** cubical_cover.py:306-318: index of the neighbour, or -1.  [fw] lists [(pos[i], div[i], step[i])]
    and [bw] lists [(step[-i-1], div[-i-1])]. *)
Fixpoint neighbour_index (fw : list (Z * Z * Z)) (bw : list (Z * Z)) (idx step : Z) : Z :=
  match fw, bw with
  | (p, d, s) :: fw', (s', d') :: bw' =>
      if ((p =? 0) && (s =? -1)) || ((p =? d - 1) && (s =? 1)) then -1
      else neighbour_index fw' bw' (idx + s' * step) (step * d')
  | _, _ => idx
  end.

Definition pair_eqb (e f : Z * Z) : bool := (fst e =? fst f) && (snd e =? snd f).

(** cubical_cover.py:305-334: the loop over the steps to the neighbours of one hypercube. *)
Fixpoint neighbour_edges (fuel : nat) (div pos : list Z) (current : Z) (nstep : list Z) (graph : list (Z * Z))
  : res (list (Z * Z)) :=
  if existsb (fun s => s <? 0) nstep then
    match fuel with
    | O => Err OutOfFuel
    | S fuel' =>
        let idx := neighbour_index (combine (combine pos div) nstep) (combine (rev nstep) (rev div)) current 1 in
        let edge := (Z.min idx current, Z.max idx current) in
        let graph' := if (0 <=? idx) && negb (existsb (pair_eqb edge) graph) then graph ++ [edge] else graph in
        neighbour_edges fuel' div pos current (advance (-1) (map (fun _ => 1) nstep) nstep) graph'
    end
  else Ok graph.

(** cubical_cover.py:300-336: the loop over the hypercubes, [k] of them remaining. *)
Fixpoint nerve_graph_loop (k : nat) (div pos : list Z) (current : Z) (graph : list (Z * Z)) : res (list (Z * Z)) :=
  match k with
  | O => Ok graph
  | S k' =>
      graph' <- neighbour_edges (3 ^ length div) div pos current (map (fun _ => -1) div) graph ;;
      nerve_graph_loop k' div (next_hypercube pos div) (current + 1) graph'
  end.

(** cubical_cover.py:242-338, [nerve_hypercube_cover]: [nerve[0]] and [nerve[1..]]. *)
Definition nerve_hypercube_cover (div : list Z) : res (nat * list (list simplex)) :=
  let n := Z.to_nat (number_hypercubes div) in
  graph <- nerve_graph_loop n div (map (fun _ => 0) div) 0 [] ;;
  flag_complex (map (fun e => (Z.to_nat (fst e), Z.to_nat (snd e))) graph) n (2 ^ Z.of_nat (length div)).

(** ** The cover *)
Local Open Scope Q_scope.

Definition point := list Q.
Definition coord (d : nat) (pt : point) : Q := nth d pt 0.

Definition qmin (x y : Q) : Q := if Qle_bool x y then x else y.
Definition qmax (x y : Q) : Q := if Qle_bool x y then y else x.

(** [np.amin] and [np.amax] of an array of numbers; empty arrays raise [ValueError]. *)
Definition amin (l : list Q) : res Q := match l with [] => Err ValueError | x :: xs => Ok (fold_left qmin xs x) end.
Definition amax (l : list Q) : res Q := match l with [] => Err ValueError | x :: xs => Ok (fold_left qmax xs x) end.

(** cubical_cover.py:203-236, [corners_hypercube] *)
Definition corners_hypercube (dim : nat) (pc : list point) : res (list Q * list Q) :=
  min_corner <- mapM (fun d => amin (map (coord d) pc)) (seq 0 dim) ;;
  max_corner <- mapM (fun d => amax (map (coord d) pc)) (seq 0 dim) ;;
  Ok (min_corner, max_corner).

(** cubical_cover.py:120-129: the side of the hypercubes and the divisions.  Division by
    [max_div = 0] gives an infinite side in numpy, hence no divisions (and 0/0 is nan, on which
    [math.ceil] raises [ValueError]). *)
Definition side_and_div (max_div : Z) (min_corner max_corner : list Q) : res (Q * list Z) :=
  let lengths := zipw (fun M m => M - m) max_corner min_corner in
  max_length <- amax (map Qabs lengths) ;;
  if Qeq_bool max_length 0 then Err ValueError
  else if (max_div =? 0)%Z then Ok (0, map (fun _ => 0%Z) lengths)
  else let side := max_length / inject_Z max_div in
       Ok (side, map (fun l => Qceiling (l / side)) lengths).

(** cubical_cover.py:142-154: lower and upper corners of the hypercube at [pos].  [cast] is the
    conversion done by numpy when a float is assigned to an entry of the array [min_corner]:
    the identity for float clouds, truncation for integer clouds. *)
Definition lower_corner (cast : Q -> Q) (side overlap : Q) (min_corner : list Q) (pos : list Z) : list Q :=
  let dist := overlap / 2 + side / 2 in
  zipw (fun m x => cast (cast (m + side * inject_Z x) - (dist - side / 2))) min_corner pos.
Definition upper_corner (cast : Q -> Q) (side overlap : Q) (min_corner : list Q) (pos : list Z) : list Q :=
  let dist := overlap / 2 + side / 2 in
  zipw (fun m x => cast (cast (m + side * inject_Z x) + (dist + side / 2))) min_corner pos.

(** cubical_cover.py:162-168 *)
Fixpoint in_hypercube (lcor ucor : list Q) (pt : point) : bool :=
  match lcor, ucor, pt with
  | l :: lcor', u :: ucor', x :: pt' =>
      if negb (Qle_bool l x) then false
      else if negb (Qle_bool x u) then false
      else in_hypercube lcor' ucor' pt'
  | _, _, _ => true
  end.

(** cubical_cover.py:144-177: the points, with their numbers, of the [k] hypercubes from [pos] on. *)
Fixpoint divide (cast : Q -> Q) (side overlap : Q) (min_corner : list Q) (div : list Z) (pc : list point)
    (k : nat) (pos : list Z) : list (list (nat * point)) :=
  match k with
  | O => []
  | S k' =>
      let lcor := lower_corner cast side overlap min_corner pos in
      let ucor := upper_corner cast side overlap min_corner pos in
      filter (fun ip => in_hypercube lcor ucor (snd ip)) (combine (seq 0 (length pc)) pc)
      :: divide cast side overlap min_corner div pc k' (next_hypercube pos div)
  end.

(** cubical_cover.py:344-375, [intersection_covers] *)
Definition intersection_covers (points_IN : list (list nat)) (s : simplex) : res (list nat) :=
  match s with
  | [] => Err IndexError
  | v :: vs =>
      l <- nth_err points_IN v ;;
      foldM (fun l w => lw <- nth_err points_IN w ;; Ok (filter (fun i => memn i lw) l)) vs l
  end.

(** cubical_cover.py:187-194: one level of the nerve. *)
Definition cover_level (pc : list point) (points_IN : list (list nat)) (simplices : list simplex)
  : res (list (list point) * list (list nat)) :=
  ins <- mapM (intersection_covers points_IN) simplices ;;
  pts <- mapM (take_err pc) ins ;;
  Ok (pts, ins).

(** cubical_cover.py:43-196, [generate_cover]: [nerve_point_cloud], [nerve_points_IN] and [nerve]. *)
Definition generate_cover (cast : Q -> Q) (max_div : Z) (overlap : Q) (dim : nat) (pc : list point)
  : res (list (list (list point)) * list (list (list nat)) * (nat * list (list simplex))) :=
  '(min_corner, max_corner) <- corners_hypercube dim pc ;;
  '(side, div) <- side_and_div max_div min_corner max_corner ;;
  let n := Z.to_nat (number_hypercubes div) in
  let divided := divide cast side overlap min_corner div pc n (map (fun _ => 0%Z) div) in
  let points_IN := map (map fst) divided in
  '(n0, levels) <- nerve_hypercube_cover div ;;
  rest <- mapM (cover_level pc points_IN) levels ;;
  Ok (map (map snd) divided :: map fst rest, points_IN :: map snd rest, (n0, levels)).

(** Conversion of floats assigned to integer arrays: truncation towards zero. *)
Definition truncate (q : Q) : Q := inject_Z (if Qle_bool 0 q then Qfloor q else Qceiling q).
