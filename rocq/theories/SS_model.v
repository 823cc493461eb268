(** * Model of the first page of [permaviss/spectral_sequence/spectral_sequence_class.py] and of the
    0-page part of [MV_spectral_seq.py].

    The mutable attributes filled while the 0 page is computed are collected in the record [ss], which
    the later methods only read. *)
From Verif Require Import Base SortX Gauss_model Basis_model PH_model Simp_model LC_model.
Local Open Scope Z_scope.

(** What [local_persistent_homology] returns for one simplex of the nerve (MV_spectral_seq.py:340):
    [subcomplexes[n_dim][k]] as the vertex count and the other levels, [zero_diff[n_dim][k]] from
    degree 1 on, and [Hom], [Im], [PreIm]. *)
Record local := Local { l_n0 : nat; l_Cs : list (list simplex); l_Ds : list mat; l_out : ph_out }.

(** spectral_sequence_class.py:229-263: the attributes of column [n_dim] after [add_output_first]:
    [cycle_dimensions[n_dim]], [page_dim_matrix[1, :, n_dim]] and [first_page_barcodes[n_dim]]. *)
Record column := Column { c_loc : list local; c_cyc : list (list nat); c_dim : list nat; c_bars : list (list bar) }.

Record ss := SS {
  s_p : Z; s_max_r : Z; s_rows : nat;
  s_n0 : nat; s_nerve : list (list simplex);     (* [nerve] *)
  s_ndiff : list mat;                            (* [nerve_differentials[1..]] *)
  s_IN : list (list (list nat));                 (* [points_IN] *)
  s_cols : list column
}.

(** spectral_sequence_class.py:146-150, [nerve_spx_number] *)
Definition spx_number (S : ss) (n : nat) : res nat :=
  match n with O => Ok (s_n0 S) | S n' => l <- nth_err (s_nerve S) n' ;; Ok (length l) end.

(** ** 0 page *)

(** MV_spectral_seq.py:328-331.  [Dist] is the distance matrix of the whole cloud.
    Simplification: the entries of [pdist] of the selected points are those of [pdist] of the cloud. *)
Definition sub_dist (Dist : list (list Z)) (ins : list nat) : res (list (list Z)) :=
  mapM (fun i => mapM (fun j => dist_at Dist i j) ins) ins.

(** MV_spectral_seq.py:287-340, [local_persistent_homology] *)
Definition local_ph (argsort : list Z -> list nat) (rnd : Z -> Z) (Dist : list (list Z)) (max_r max_dim p : Z)
    (ins : list nat) : res local :=
  D <- sub_dist Dist ins ;;
  '(Cs, Ds, out) <- local_homology argsort rnd D max_r max_dim p ;;
  Ok (Local (length D) Cs Ds out).

(** [Hom[0][n_dim][k][deg]], [Im[0][n_dim][k][deg]], [PreIm[0][n_dim][k][deg]] *)
Definition hom0 (l : local) (deg : nat) : res basis := nth_err (ph_hom (l_out l)) deg.
Definition im0 (l : local) (deg : nat) : res basis := nth_err (ph_im (l_out l)) deg.
Definition preim0 (l : local) (deg : nat) : res mat := nth_err (ph_preim (l_out l)) deg.

(** spectral_sequence_class.py:238-247, cumulative dimensions *)
Fixpoint cumulate (s : nat) (l : list nat) : list nat :=
  match l with [] => [] | x :: l' => (s + x)%nat :: cumulate (s + x) l' end.

(** spectral_sequence_class.py:237-263, the body of the loop over [deg]: the row of [cycle_dimensions], the
    total and the barcode.  [first_page_barcodes] is [[]] exactly when there are no cycles. *)
Definition first_row (out : list local) (nspx : nat) (deg : nat) : res (list nat * nat * list bar) :=
  ls <- take_err out (seq 0 nspx) ;;
  hs <- mapM (fun l => hom0 l deg) ls ;;
  let dims := map b_dim hs in
  let cyc := cumulate 0 dims in
  let total := last cyc 0%nat in
  bars <- (if Nat.eqb total 0 then Ok []
           else blocks <- mapM (fun h => if Nat.ltb 0 (b_dim h) then
                                           if Nat.eqb (length (b_bars h)) (b_dim h) then Ok (b_bars h) else Err ValueError
                                         else Ok []) hs ;;
                Ok (concat blocks)) ;;
  Ok (cyc ++ [0%nat], total, bars).

(** spectral_sequence_class.py:216-263, [add_output_first] *)
Definition add_output_first (rows : nat) (out : list local) (nspx : nat) : res column :=
  if Nat.ltb 0 (length out) then
    rs <- mapM (first_row out nspx) (seq 0 rows) ;;
    Ok (Column out (map (fun r => fst (fst r)) rs) (map (fun r => snd (fst r)) rs) (map snd rs))
  else Ok (Column out [] (repeat 0%nat rows) (repeat [] rows)).

(** MV_spectral_seq.py:97-128: the constructor and the 0 page.  [nerve_dim = len(nerve) - 1 = length nerve]
    columns are computed; the remaining one keeps its initial values. *)
Definition zero_page (argsort : list Z -> list nat) (rnd : Z -> Z) (Dist : list (list Z)) (max_r max_dim p : Z)
    (IN : list (list (list nat))) (n0 : nat) (nerve : list (list simplex)) : res ss :=
  '(_, ndiff) <- complex_differentials n0 nerve p ;;
  let rows := Z.to_nat max_dim in
  let S0 := SS p max_r rows n0 nerve ndiff IN [] in
  columns <- mapM (fun n =>
      nspx <- spx_number S0 n ;;
      INn <- nth_err IN n ;;
      ins <- take_err INn (seq 0 nspx) ;;
      out <- mapM (local_ph argsort rnd Dist max_r max_dim p) ins ;;
      add_output_first rows out nspx) (seq 0 (length nerve)) ;;
  Ok (SS p max_r rows n0 nerve ndiff IN (columns ++ [Column [] [] (repeat 0%nat rows) (repeat [] rows)])).

(** ** Reading the state *)
Definition the_local (S : ss) (n k : nat) : res local := c <- nth_err (s_cols S) n ;; nth_err (c_loc c) k.
Definition the_IN (S : ss) (n k : nat) : res (list nat) := l <- nth_err (s_IN S) n ;; nth_err l k.
Definition cycle_dims (S : ss) (n deg : nat) : res (list nat) := c <- nth_err (s_cols S) n ;; nth_err (c_cyc c) deg.
(** [page_dim_matrix[1, deg, n_dim]] *)
Definition page_dim1 (S : ss) (n deg : nat) : res nat := c <- nth_err (s_cols S) n ;; nth_err (c_dim c) deg.
(** Number of [deg]-simplices (spectral_sequence_class.py:604-607). *)
Definition sub_size (l : local) (deg : nat) : res nat :=
  match deg with O => Ok (l_n0 l) | S d => c <- nth_err (l_Cs l) d ;; Ok (length c) end.

(** ** Cech differential *)

(** A column of a matrix of zeros with [n] rows in which entry [i] has been set. *)
Definition unit_col (n i : nat) (x : Z) : res vec := if Nat.ltb i n then Ok (list_set (vzero n) i x) else Err IndexError.

(** spectral_sequence_class.py:665-669: the column of one point.  [np.argmax] of a boolean array is the first
    position that holds, or 0; it raises [ValueError] on an empty array. *)
Definition point_column (n : nat) (face_IN : list nat) (q : nat) (x : Z) : res vec :=
  if Nat.eqb (length face_IN) 0 then Err ValueError
  else unit_col n (match find_idx (Nat.eqb q) face_IN with Some i => i | None => 0%nat end) x.

(** spectral_sequence_class.py:681-693: the column of one simplex; the first simplex of the face with the same vertices. *)
Fixpoint face_position (deg : nat) (vs : list nat) (face_IN : list nat) (Cd : list simplex) : res (option nat) :=
  match Cd with
  | [] => Ok None
  | im :: Cd' =>
      vf <- take_err face_IN im ;;
      if Nat.eqb (length (intersect1d vs vf)) (S deg) then Ok (Some 0%nat)
      else o <- face_position deg vs face_IN Cd' ;; Ok (option_map S o)
  end.

Definition simplex_column (deg : nat) (IN face_IN : list nat) (face_Cd : list simplex) (x : Z) (s : simplex) : res vec :=
  vs <- take_err IN s ;;
  o <- face_position deg vs face_IN face_Cd ;;
  match o with Some i => unit_col (length face_Cd) i x | None => Ok (vzero (length face_Cd)) end.

(** spectral_sequence_class.py:632-698, [local_cech_matrix]; here the domain is [(n+1, deg)] at [spx] and the codomain
    [(n, deg)] at [face]. *)
Definition local_cech_matrix (S : ss) (n deg spx face : nat) (coeff : Z) : res mat :=
  let x := (coeff * (-1) ^ Z.of_nat deg) mod s_p S in
  lf <- the_local S n face ;;
  ls <- the_local S (1 + n) spx ;;
  match deg with
  | O =>
      cs <- mapM (fun pt =>
          face_IN <- the_IN S n face ;;
          IN <- the_IN S (1 + n) spx ;;
          q <- nth_err IN pt ;;
          point_column (l_n0 lf) face_IN q x) (seq 0 (l_n0 ls)) ;;
      Ok (Mat (l_n0 lf) cs)
  | S d =>
      face_Cd <- nth_err (l_Cs lf) d ;;
      Cd <- nth_err (l_Cs ls) d ;;
      cs <- mapM (fun s =>
          IN <- the_IN S (1 + n) spx ;;
          face_IN <- the_IN S n face ;;
          simplex_column deg IN face_IN face_Cd x s) Cd ;;
      Ok (Mat (length face_Cd) cs)
  end.

(** spectral_sequence_class.py:611-624, the body of the loop over the cofaces: [acc] holds the image of the generators
    [ref] as rows. *)
Definition cech_coface (S : ss) (chains : chains) (n deg k : nat) (ref : list nat) (size : nat) (acc : list vec)
    (jc : nat * Z) : res (list vec) :=
  e <- nth_err chains (fst jc) ;;
  if Nat.ltb 0 (length (le_ref e)) then
    cech_local <- local_cech_matrix S n deg (fst jc) k (snd jc) ;;
    match le_coord e with
    | LNil => Err ValueError
    | LMat w rows =>
        if Nat.eqb w (ncols cech_local) then isin_add ref (le_ref e) size (LMat size (map (mvmul cech_local) rows)) acc
        else Err ValueError
    end
  else Ok acc.

(** Row [k] of a matrix, with numpy's bounds check. *)
Definition row_err (A : mat) (k : nat) : res vec :=
  if Nat.ltb k (nrows A) then Ok (map (fun c => vget c k) (cols A)) else Err IndexError.

(** [np.nonzero(coboundary)[0]] with the values there. *)
Definition nonzero_entries (v : vec) : list (nat * Z) :=
  filter (fun jc => negb (snd jc =? 0)) (combine (seq 0 (length v)) v).

(** spectral_sequence_class.py:570-628, [cech_diff_local], from [(n+1, deg)] to [(n, deg)]. *)
Definition cech_diff_local (S : ss) (chains : chains) (n deg k : nat) : res (list nat * lcoord) :=
  D <- nth_err (s_ndiff S) n ;;
  coboundary <- row_err D k ;;
  let cofaces := nonzero_entries coboundary in
  if Nat.eqb (length cofaces) 0 then Err IndexError
  else
    es <- mapM (fun jc => nth_err chains (fst jc)) cofaces ;;
    let ref := nunique (concat (map le_ref es)) in
    if Nat.eqb (length ref) 0 then Ok ([], LNil)
    else
      l <- the_local S n k ;;
      size <- sub_size l deg ;;
      rows <- foldM (cech_coface S chains n deg k ref size) cofaces (repeat (vzero size) (length ref)) ;;
      Ok (ref, LMat size (map (fun r => vmod r (s_p S)) rows)).

(** spectral_sequence_class.py:478-502, [cech_diff] *)
Definition cech_diff (S : ss) (n deg : nat) (start : chains) : res chains :=
  nspx <- spx_number S n ;;
  foldM (fun c k => '(ref, coord) <- cech_diff_local S start n deg k ;; add_entry c k ref coord)
        (seq 0 nspx) (empty_chains nspx).

(** ** Lifts *)

(** [barcode[:, 0]] *)
Definition births (b : basis) : list Z := map fst (b_bars b).

(** spectral_sequence_class.py:704-774, [first_page_local_lift] on coordinates given as rows.  [None] stands for the
    pair of empty lists. *)
Definition first_page_local_lift (S : ss) (n deg : nat) (w : nat) (rows : list vec) (radii : list Z) (k : nat)
  : res (option (mat * mat)) :=
  if Nat.eqb (length radii) 0 then Ok None
  else
    l <- the_local S n k ;;
    im <- im0 l deg ;;
    hom <- hom0 l deg ;;
    let lift (Im_Hom : mat) (R_M : list Z) : res (option (mat * mat)) :=
      if negb (Nat.eqb (nrows Im_Hom) w) then Err ValueError
      else
        let start := ncols Im_Hom in
        '(_, T) <- gauss_col_rad (Mat w (cols Im_Hom ++ rows)) (R_M ++ radii) start (s_p S) ;;
        let T' := map (map (fun x => (- x) mod s_p S)) (skipn start (cols T)) in
        Ok (Some (Mat (Nat.min (b_dim im) (nrows T)) (map (firstn (b_dim im)) T'),
                  Mat (Nat.min start (nrows T) - Nat.min (b_dim im) (nrows T)) (map (fun c => skipn (b_dim im) (firstn start c)) T')))
    in
    if Nat.ltb 0 (b_dim im) && Nat.ltb 0 (b_dim hom) then
      if Nat.eqb (nrows (b_coords im)) (nrows (b_coords hom)) then
        lift (mappend (b_coords im) (b_coords hom)) (births im ++ births hom)
      else Err ValueError
    else if Nat.ltb 0 (b_dim hom) then lift (b_coords hom) (births hom)
    else if Nat.ltb 0 (b_dim im) then lift (b_coords im) (births im)
    else Ok None.

(** [np.matmul(A, B)] with numpy's shape check. *)
Definition matmul (A B : mat) : res mat := if Nat.eqb (ncols A) (nrows B) then Ok (mmul A B) else Err ValueError.

(** spectral_sequence_class.py:550-551: row [generators[i]] of a zero array with [nR] rows receives column [i] of [betas].
    The result has one column per row of [betas].  Positions were checked by [R[generators]]. *)
Definition scatter_rows (nR : nat) (generators : list nat) (betas : mat) : mat :=
  Mat nR (map (fun h => map (fun g => match find_idx (Nat.eqb g) generators with Some i => get betas h i | None => 0 end)
                            (seq 0 nR)) (seq 0 (nrows betas))).

(** [cycle_dimensions[n_dim][deg][k-1]], where index -1 is the last entry. *)
Definition prev_dim (cyc : list nat) (k : nat) : res nat :=
  match k with O => (match cyc with [] => Err IndexError | _ => Ok (last cyc 0%nat) end) | S k' => nth_err cyc k' end.

(** spectral_sequence_class.py:507-564, [cech_diff_and_lift_local], into [(n, deg)] at [k]. *)
Definition cech_diff_and_lift_local (S : ss) (R : list Z) (start : chains) (n deg k : nat)
  : res (option (mat * list nat * lcoord)) :=
  cyc <- cycle_dims S n deg ;;
  prev <- prev_dim cyc k ;;
  next <- nth_err cyc k ;;
  if Nat.eqb prev next then Ok None
  else
    '(generators, coord) <- cech_diff_local S start n deg k ;;
    if Nat.eqb (length generators) 0 then Ok None
    else
      radii <- take_err R generators ;;
      match coord with
      | LNil => Err ValueError
      | LMat w rows =>
          gb <- first_page_local_lift S n deg w rows radii k ;;
          match gb with
          | None => Err ValueError
          | Some (gammas, betas) =>
              if negb (Nat.eqb (nrows betas) (next - prev)) then Err ValueError
              else
                l <- the_local S n k ;;
                pre <- preim0 l (1 + deg) ;;
                P <- matmul pre gammas ;;
                let nonzero := filter (fun i => vany (col gammas i)) (seq 0 (ncols gammas)) in
                let betas1 := scatter_rows (length R) generators betas in
                if Nat.ltb 0 (length nonzero) then
                  Ok (Some (betas1, take 0%nat generators nonzero,
                            LMat (nrows P) (map (fun i => map (fun x => (- x) mod s_p S) (col P i)) nonzero)))
                else Ok (Some (betas1, [], LNil))
          end
      end.

(** spectral_sequence_class.py:418-472, [cech_diff_and_lift], from [(n+1, deg)] to [(n, deg)].
    Simplification: the columns [prev:next] of [Betas_1_page] are written one after the other, so the matrix is their
    concatenation (its width is the total [page_dim_matrix[1, deg, n]]). *)
Definition cech_diff_and_lift (S : ss) (n deg : nat) (start : chains) (R : list Z) : res (mat * chains) :=
  total <- page_dim1 S n deg ;;
  nspx <- spx_number S n ;;
  if Nat.eqb (length R) 0 then Ok (Mat 0 (repeat [] total), empty_chains nspx)
  else
    output <- mapM (cech_diff_and_lift_local S R start n deg) (seq 0 nspx) ;;
    cyc <- cycle_dims S n deg ;;
    '(betas, lifts, _) <- foldM (fun (st : list vec * chains * nat) (kn : nat * nat) =>
        let '(betas, lifts, prev) := st in
        o <- nth_err output (fst kn) ;;
        match o with
        | Some (b, ref, coord) =>
            lifts' <- add_entry lifts (fst kn) ref coord ;;
            Ok (betas ++ cols b, lifts', snd kn)
        | None => Ok (betas ++ repeat (vzero (length R)) (snd kn - prev), lifts, snd kn)
        end) (combine (seq 0 (length cyc - 1)) (removelast cyc)) ([], empty_chains nspx, 0%nat) ;;
    Ok (Mat (length R) betas, lifts).

(** spectral_sequence_class.py:780-837, [first_page_lift], in [(n, deg)]. *)
Definition first_page_lift (S : ss) (n deg : nat) (start : chains) (R : list Z) : res (mat * chains) :=
  nspx <- spx_number S n ;;
  total <- page_dim1 S n deg ;;
  if Nat.eqb (length R) 0 then Ok (Mat 0 (repeat [] total), empty_chains nspx)
  else
    output <- mapM (fun k =>
        e <- nth_err start k ;;
        if Nat.ltb 0 (length (le_ref e)) then
          radii <- take_err R (le_ref e) ;;
          match le_coord e with
          | LNil => Err ValueError
          | LMat w rows => first_page_local_lift S n deg w rows radii k
          end
        else Ok None) (seq 0 nspx) ;;
    cyc <- cycle_dims S n deg ;;
    '(betas, lifts, _) <- foldM (fun (st : list vec * chains * nat) (kn : nat * nat) =>
        let '(betas, lifts, prev) := st in
        let zeros := repeat (vzero (length R)) (snd kn - prev) in
        o <- nth_err output (fst kn) ;;
        e <- nth_err start (fst kn) ;;
        match o with
        | Some (g, b) =>
            bs <- (if Nat.ltb 0 (nrows b) then
                     if Nat.eqb (nrows b) (snd kn - prev) then Ok (cols (scatter_rows (length R) (le_ref e) b)) else Err ValueError
                   else Ok zeros) ;;
            lifts' <- (if Nat.ltb 0 (nrows g) then
                         l <- the_local S n (fst kn) ;;
                         pre <- preim0 l (1 + deg) ;;
                         P <- matmul pre g ;;
                         add_entry lifts (fst kn) (le_ref e) (LMat (nrows P) (cols P))
                       else Ok lifts) ;;
            Ok (betas ++ bs, lifts', snd kn)
        | None => Ok (betas ++ zeros, lifts, snd kn)
        end) (combine (seq 0 (length cyc - 1)) (removelast cyc)) ([], empty_chains nspx, 0%nat) ;;
    Ok (Mat (length R) betas, lifts).

(** spectral_sequence_class.py:272-308, [first_differential], from [(n+1, deg)] to [(n, deg)].  [None] is the empty
    one-dimensional array returned when there are no classes. *)
Definition first_differential (S : ss) (n deg : nat) : res (option mat) :=
  total <- page_dim1 S (1 + n) deg ;;
  if Nat.eqb total 0 then Ok None
  else
    nspx <- spx_number S (1 + n) ;;
    cyc <- cycle_dims S (1 + n) deg ;;
    '(dom, R, _) <- foldM (fun (st : chains * list Z * nat) (kn : nat * nat) =>
        let '(dom, R, prev) := st in
        if Nat.ltb prev (snd kn) then
          l <- the_local S (1 + n) (fst kn) ;;
          h <- hom0 l deg ;;
          dom' <- add_entry dom (fst kn) (seq prev (snd kn - prev)) (LMat (nrows (b_coords h)) (cols (b_coords h))) ;;
          Ok (dom', R ++ births h, snd kn)
        else Ok st) (combine (seq 0 (length cyc - 1)) (removelast cyc)) (empty_chains nspx, [], 0%nat) ;;
    '(Betas, _) <- cech_diff_and_lift S n deg dom R ;;
    Ok (Some Betas).
