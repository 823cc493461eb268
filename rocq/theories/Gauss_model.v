(** * Model of [permaviss/gauss_mod_p]: arithmetic_mod_p.py, gauss_mod_p.py, functions.py *)
From Verif Require Import Base.
Local Open Scope Z_scope.

(** arithmetic_mod_p.py:10-27, [add_mod_c]. *)
Definition add_mod_c (a b c : Z) : Z := (a + b) mod c.

(** arithmetic_mod_p.py:30-47, [add_arrays_mod_c] on 1-D arrays. *)
Definition add_arrays_mod_c (u v : vec) (c : Z) : vec := vmod (vadd u v) c.

(** arithmetic_mod_p.py:74-80, the [while a != 0] loop of [inv_mod_p]; the
    [y0, y1] pair is computed by the code but never used and is omitted.
    [Z.div]/[Z.modulo] round towards minus infinity like Python's [//], [%].
    Returns the final [(b, x0)]. *)
Fixpoint inv_loop (fuel : nat) (a b x0 x1 : Z) : res (Z * Z) :=
  match fuel with
  | O => Err OutOfFuel
  | S f =>
      if a =? 0 then Ok (b, x0)
      else let q := b / a in inv_loop f (b mod a) a x1 (x0 - q * x1)
  end.

(** Enough fuel for the Euclid loop (see [inv_loop_fuel] in Gauss_arith.v). *)
Definition inv_fuel (a : Z) : nat := S (2 * Z.to_nat (Z.log2 (Z.abs a) + 1)).

(** arithmetic_mod_p.py:50-88, [inv_mod_p]. *)
Definition inv_mod_p (a p : Z) : res Z :=
  if p =? 0 then Err ZeroDivisionError
  else if a mod p =? 0 then Err ValueError
  else
    '(b, x0) <- inv_loop (inv_fuel a) a p 0 1 ;;
    if negb (b =? 1) then Err ValueError
    else Ok (if x0 <? 0 then x0 + p else x0).

(** gauss_mod_p.py:13-30, [index_pivot]: index of the last nonzero entry, -1 if none. *)
Fixpoint index_pivot_from (i : Z) (v : vec) (best : Z) : Z :=
  match v with
  | [] => best
  | x :: v' => index_pivot_from (i + 1) v' (if x =? 0 then best else i)
  end.
Definition index_pivot (v : vec) : Z := index_pivot_from 0 v (-1).

(** gauss_mod_p.py:74-93, the [while] loop of [gauss_col] for one column.
    [done] holds the already processed columns [(R[k], T[k])], [k < j]: they
    are not modified again by the code.  [r], [t] are [R[j]], [T[j]]. *)
Fixpoint gauss_while (fuel : nat) (done : list (vec * vec)) (r t : vec) (pivot p : Z)
  : res (vec * vec) :=
  match fuel with
  | O => Err OutOfFuel
  | S f =>
      if pivot >? -1 then
        match find (fun rt => index_pivot (fst rt) =? pivot) done with
        | None => Ok (r, t)
        | Some (rk, tk) =>
            inv <- inv_mod_p (vget rk (Z.to_nat pivot)) p ;;
            let q := (vget r (Z.to_nat pivot) * inv) mod p in
            let r' := add_arrays_mod_c r (vscale (- q) rk) p in
            let t' := add_arrays_mod_c t (vscale (- q) tk) p in
            if vany r' then gauss_while f done r' t' (index_pivot r') p
            else Ok (r', t')
        end
      else Ok (r, t)
  end.

(** gauss_mod_p.py:71-94, the [for j in range(N)] loop.  [m] = number of rows,
    [todo] = remaining columns [(R[j], T[j])] in order. *)
Fixpoint gauss_for (m : nat) (todo done : list (vec * vec)) (p : Z) : res (list (vec * vec)) :=
  match todo with
  | [] => Ok done
  | (r, t) :: todo' =>
      '(r', t') <- gauss_while (S (S m)) done r t (index_pivot r) p ;;
      gauss_for m todo' (done ++ [(r', t')]) p
  end.

(** gauss_mod_p.py:40-95, [gauss_col].  When [A] has no rows the code returns two
    empty 1-D arrays, modelled as matrices without rows and columns. *)
Definition gauss_col (A : mat) (p : Z) : res (mat * mat) :=
  if Nat.eqb (nrows A) 0 then Ok (Mat 0 [], Mat 0 [])
  else
    let N := ncols A in
    out <- gauss_for (nrows A) (combine (cols A) (cols (mident N))) [] p ;;
    Ok (Mat (nrows A) (map fst out), Mat N (map snd out)).

(** gauss_mod_p.py:145-160, body of [for k in range(start_index)] inside
    [gauss_col_rad]: scans the first columns, reducing [r] (= Red[j]) by every
    column [k] with [R[k] <= R[j]] and the given pivot, and stopping
    ([break]) as soon as a reduction leaves a nonzero column. *)
Fixpoint rad_scan (first : list (vec * vec * Z)) (r t : vec) (rj pivot p : Z) : res (vec * vec) :=
  match first with
  | [] => Ok (r, t)
  | (rk, tk, radk) :: first' =>
      if (radk <=? rj) && (index_pivot rk =? pivot) then
        inv <- inv_mod_p (vget rk (Z.to_nat pivot)) p ;;
        let q := (vget r (Z.to_nat pivot) * inv) mod p in
        let r' := add_arrays_mod_c r (vscale (- q) rk) p in
        let t' := add_arrays_mod_c t (vscale (- q) tk) p in
        if vany r' then Ok (r', t')
        else rad_scan first' r' t' rj pivot p
      else rad_scan first' r t rj pivot p
  end.

(** gauss_mod_p.py:143-168, the [while pivot > -1] loop of [gauss_col_rad]. *)
Fixpoint rad_while (fuel : nat) (first : list (vec * vec * Z)) (r t : vec) (rj pivot p : Z)
  : res (vec * vec) :=
  match fuel with
  | O => Err OutOfFuel
  | S f =>
      if pivot >? -1 then
        '(r', t') <- rad_scan first r t rj pivot p ;;
        let new_pivot := index_pivot r' in
        if negb (new_pivot =? pivot) then rad_while f first r' t' rj new_pivot p
        else Err RuntimeError
      else Ok (r, t)
  end.

Fixpoint rad_for (m : nat) (first : list (vec * vec * Z)) (todo : list (vec * vec * Z)) (p : Z)
  : res (list (vec * vec)) :=
  match todo with
  | [] => Ok []
  | (r, t, rj) :: todo' =>
      rt <- rad_while (S (S m)) first r t rj (index_pivot r) p ;;
      rest <- rad_for m first todo' p ;;
      Ok (rt :: rest)
  end.

(** gauss_mod_p.py:98-170, [gauss_col_rad].  [R] is the vector of radii; an
    index past its end is an [IndexError] (checked here at the start: the code
    would raise on first use, the result is an exception either way).
    The unused list [pivots] of the code is omitted. *)
Definition gauss_col_rad (A : mat) (R : list Z) (start_index : nat) (p : Z) : res (mat * mat) :=
  let N := ncols A in
  if Nat.ltb (length R) N then Err IndexError
  else
    let Red := cols (mmod A p) in
    let all := combine (combine Red (cols (mident N))) R in
    let first := firstn start_index all in
    out <- rad_for (nrows A) first (skipn start_index all) p ;;
    let res := map fst first ++ out in
    Ok (Mat (nrows A) (map fst res), Mat N (map snd res)).

(** gauss_mod_p.py:218-224: indices [k] with [bars[k,0] <= b < bars[k,1]], increasing. *)
Definition active_idx (bars : list (Z * Z)) (b : Z) : list nat :=
  filter (fun k => let '(x, y) := nth k bars (0, 0) in (x <=? b) && (b <? y))
         (seq 0 (length bars)).

(** gauss_mod_p.py:216-235, one iteration of the loop of [gauss_barcodes]:
    the column [idx] of [coefficients] (length [start_index]).  With
    [start_index = 0], [np.array(range(0))] has a float dtype and the fancy
    indexing [A[active_rows][:, active_columns]] raises [IndexError]. *)
Definition gauss_barcodes_col (A : mat) (row_barcode col_barcode : list (Z * Z))
    (start_index : nat) (p : Z) (j : nat) : res vec :=
  let b := fst (nth j col_barcode (0, 0)) in
  let active_rows := active_idx row_barcode b in
  let active_columns := active_idx (firstn start_index col_barcode) b in
  if Nat.eqb (length active_rows) 0 then Ok (vzero start_index)
  else if Nat.eqb start_index 0 then Err IndexError
  else
    '(Red, T) <- gauss_col (take_cols (take_rows A active_rows) (active_columns ++ [j])) p ;;
    let n := length active_columns in
    if vany (col Red n) then Err RuntimeError
    else
      let x := map (fun i => (- vget (col T n) i) mod p) (seq 0 n) in
      Ok (map (fun k => match find_idx (Nat.eqb k) active_columns with
                        | Some i => vget x i
                        | None => 0
                        end) (seq 0 start_index)).

(** gauss_mod_p.py:173-236, [gauss_barcodes]: a [start_index] x [N_col - start_index] matrix. *)
Definition gauss_barcodes (A : mat) (row_barcode col_barcode : list (Z * Z))
    (start_index : nat) (p : Z) : res mat :=
  cs <- mapM (gauss_barcodes_col A row_barcode col_barcode start_index p)
             (seq start_index (ncols A - start_index)) ;;
  Ok (Mat start_index cs).

(** functions.py:15-19, [multiply_mod_p] on matrices. *)
Definition multiply_mod_p (A B : mat) (p : Z) : mat := mmod (mmul A B) p.

(** functions.py:26-59, [solve_mod_p].  [np.append] raises [ValueError] when the
    numbers of rows differ.  A matrix without rows makes [R[:, -1]]
    raise [IndexError] because [gauss_col] returns 1-D arrays. *)
Definition solve_mod_p (A : mat) (b : vec) (p : Z) : res vec :=
  if negb (Nat.eqb (length b) (nrows A)) then Err ValueError else
  '(R, T) <- gauss_col (mappend A (Mat (length b) [b])) p ;;
  let n := ncols A in
  if Nat.ltb n (ncols R) then
    if vany (col R n) then Err ValueError
    else Ok (map (fun x => (- x) mod p) (firstn n (col T n)))
  else Err IndexError.

(** functions.py:66-97, [solve_matrix_mod_p].  Note the transpose of [B]. *)
Definition solve_matrix_mod_p (A B : mat) (p : Z) : res mat :=
  if negb (Nat.eqb (ncols B) (nrows A)) then Err ValueError else
  '(R, T) <- gauss_col (mappend A (mtr B)) p ;;
  let n := ncols A in
  if Nat.eqb (nrows A) 0 then Err IndexError
  else if existsb vany (skipn n (cols R)) then Err ValueError
  else Ok (Mat n (map (fun c => map (fun x => (- x) mod p) (firstn n c)) (skipn n (cols T)))).
