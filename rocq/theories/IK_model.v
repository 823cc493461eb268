(** * Model of [permaviss/persistence_algebra/image_kernel.py] and [module_persistence_homology.py] *)
From Verif Require Import Base SortX Gauss_model Basis_model PH_model.
Local Open Scope Z_scope.

(** [piv in l] for an integer [piv] and an array of indices [l]. *)
Definition memi (piv : Z) (l : list nat) : bool := existsb (fun i => Z.of_nat i =? piv) l.

(** image_kernel.py:272-290, [pivot_check_reduce].  [prev] lists, for the columns before the current one, the
    column of [M], the column of [T] (empty when the call has no [T]) and the entry of [pivots_prev];
    [r], [t] are the current columns.  Returns the new columns and the pivot.  Python's recursion limit is not
    modelled. *)
Fixpoint pivot_check_reduce (fuel : nat) (active_rows : list nat) (prev : list (vec * vec * Z)) (r t : vec) (p : Z)
  : res (vec * vec * Z) :=
  match fuel with
  | O => Err OutOfFuel
  | S f =>
      let k := index_pivot (map (fun i => vget r i mod p) active_rows) in
      if k =? -1 then Ok (r, t, -1)
      else
        let piv := nth (Z.to_nat k) active_rows 0%nat in
        match find (fun c => snd c =? Z.of_nat piv) prev with
        | None => Ok (r, t, Z.of_nat piv)
        | Some (rk, tk, _) =>
            inv <- inv_mod_p (vget rk piv) p ;;
            pivot_check_reduce f active_rows prev (add_arrays_mod_c (vscale inv rk) r p)
              (add_arrays_mod_c (vscale inv tk) t p) p
        end
  end.

(** Each pivot value is visited at most [p] times (see [pcr_total] in IK_pivot.v). *)
Definition pcr_fuel (active_rows : list nat) (p : Z) : nat := S (length active_rows * Z.to_nat p).

(** image_kernel.py:148-155: one column of the image arrays: a row of [Im_barcode], a column of [Im_coordinates],
    a column of [T] and an entry of [pivots_Im]. *)
Record icol := ICol { ic_birth : Z; ic_death : Z; ic_col : vec; ic_T : vec; ic_piv : Z }.
(** image_kernel.py:157-163: one used slot of the kernel arrays.  Unused slots hold the pivot -2, which is neither an
    index nor a new pivot, so the loops skip them; they are left out here. *)
Record kcol := KCol { kc_birth : Z; kc_death : Z; kc_col : vec; kc_piv : Z }.

Definition set_death (c : icol) (rad : Z) : icol := ICol (ic_birth c) rad (ic_col c) (ic_T c) (ic_piv c).
Definition set_piv (c : icol) (piv : Z) : icol := ICol (ic_birth c) (ic_death c) (ic_col c) (ic_T c) piv.

(** [T[:, j][active] = cyc[active]] *)
Definition overwrite (active : list nat) (cyc t : vec) : vec :=
  map (fun i => if memn i active then vget cyc i else vget t i) (seq 0 (length t)).

(** image_kernel.py:174-200, one iteration of the loop over the kernel columns; [acc] = columns already visited,
    [new_pivots], and the image columns. *)
Definition ker_step (F : mat) (active_A active_B dying_A : list nat) (rad p : Z)
    (st : list kcol * list Z * list icol) (k : kcol) : res (list kcol * list Z * list icol) :=
  let '(acc, newp, ims) := st in
  if memi (kc_piv k) dying_A || memz (kc_piv k) newp then
    '(r, _, piv) <- pivot_check_reduce (pcr_fuel active_A p) active_A
                      (map (fun c => (kc_col c, [], kc_piv c)) acc) (kc_col k) [] p ;;
    if negb (piv =? -1) then
      let j := Z.to_nat piv in
      c <- nth_err ims j ;;
      let sub := take_cols F active_A in
      let new_coord := col (multiply_mod_p sub (Mat (length active_A) [map (vget r) active_A]) p) 0 in
      if existsb (fun i => negb (vget new_coord i =? 0)) active_B then Err ValueError
      else
        let c1 := set_death c rad in
        let c2 := if negb (ic_piv c =? -1)
                  then ICol (ic_birth c) rad new_coord (overwrite active_A r (ic_T c)) (-1)
                  else c1 in
        Ok (acc ++ [KCol (kc_birth k) (kc_death k) r piv], newp ++ [piv], list_set ims j c2)
    else Ok (acc ++ [KCol (kc_birth k) rad r piv], newp, ims)
  else Ok (acc ++ [k], newp, ims).

(** image_kernel.py:202-207: a relative or broken computation kills the image bars whose generator dies. *)
Definition rel_kill (start_index : nat) (dying_A : list nat) (rad : Z) (jc : nat * icol) : icol :=
  let '(j, c) := jc in
  if memn j dying_A && Nat.leb start_index j && negb (ic_piv c =? -1)
  then set_piv (set_death c rad) (-1) else c.

Definition set_col (c : icol) (v : vec) : icol := ICol (ic_birth c) (ic_death c) v (ic_T c) (ic_piv c).

(** image_kernel.py:213-236, one iteration of the loop over the image columns; [acc] = columns already visited. *)
Definition im_step (F : mat) (active_B dying_A birth_A dying_B : list nat) (rad p : Z) (start_index cap : nat)
    (broken : bool) (st : list icol * list Z * list kcol) (c : icol) : res (list icol * list Z * list kcol) :=
  let '(acc, newp, ker) := st in
  let col_idx := length acc in
  let piv := ic_piv c in
  if ((0 <=? piv) && (vget (ic_col c) (Z.to_nat piv) mod p =? 0)) || memi piv dying_B || memz piv newp
     || memn col_idx birth_A
  then
    '(r, t, piv') <- pivot_check_reduce (pcr_fuel active_B p) active_B
                       (map (fun c => (ic_col c, ic_T c, ic_piv c)) acc) (ic_col c) (ic_T c) p ;;
    if negb (piv' =? -1)
    then Ok (acc ++ [ICol (ic_birth c) (ic_death c) r t piv'], newp ++ [piv'], ker)
    else
      ker' <- (if negb (memn col_idx dying_A) && negb broken && Nat.eqb start_index 0
               then push cap ker (KCol rad 0 t (Z.of_nat col_idx)) else Ok ker) ;;
      let c' := if Nat.ltb 0 start_index
                then let t' := map (fun i => if Nat.ltb i start_index then 0 else vget t i) (seq 0 (length t)) in
                     ICol (ic_birth c) rad (col (multiply_mod_p F (Mat (length t) [t']) p) 0) t' piv'
                else ICol (ic_birth c) rad r t piv' in
      Ok (acc ++ [c'], newp, ker')
  else Ok (acc ++ [c], newp, ker).

(** Enumeration of a list with its indices. *)
Definition enum {A} (l : list A) : list (nat * A) := combine (seq 0 (length l)) l.

(** image_kernel.py:166-236, the body of the loop over the radii. *)
Definition rad_step (A B : basis) (F : mat) (p : Z) (start_index : nat) (st : list icol * list kcol) (rad : Z)
  : res (list icol * list kcol) :=
  let '(ims, ker) := st in
  active_A <- active A rad ;;
  active_B <- active B rad ;;
  dying_A <- death A rad ;;
  birth_A <- birth A rad ;;
  dying_B <- death B rad ;;
  let broken := match b_brk B with Some _ => true | None => false end in
  '(ker1, ims1) <-
    (if negb broken && Nat.eqb start_index 0 then
       '(k, _, i) <- foldM (ker_step F active_A active_B dying_A rad p) ker ([], [], ims) ;; Ok (k, i)
     else
       let killed := map (rel_kill start_index dying_A rad) (enum ims) in
       if broken then
         M <- update_broken B (Mat (b_dim B) (map ic_col killed)) rad p ;;
         Ok (ker, zipw set_col killed (cols M))
       else Ok (ker, killed)) ;;
  '(ims2, _, ker2) <- foldM (im_step F active_B dying_A birth_A dying_B rad p start_index (b_dim A) broken) ims1 ([], [], ker1) ;;
  Ok (ims2, ker2).

(** image_kernel.py:238-250: kill the bars still alive, at [a[-1]]. *)
Definition finish_ims (a : list Z) (ims : list icol) : res (list icol) :=
  mapM (fun c => if negb (ic_piv c =? -1)
                 then match rev a with x :: _ => Ok (set_death c x) | [] => Err IndexError end
                 else Ok c) ims.
Definition finish_ker (a : list Z) (ker : list kcol) : res (list kcol) :=
  mapM (fun k => if negb (kc_piv k =? -1)
                 then match rev a with x :: _ => Ok (KCol (kc_birth k) x (kc_col k) (kc_piv k)) | [] => Err IndexError end
                 else Ok k) ker.

(** Fancy row indexing with numpy's bounds check. *)
Definition take_rows_err (A : mat) (rows : list nat) : res mat :=
  if forallb (fun i => Nat.ltb i (nrows A)) rows then Ok (take_rows A rows) else Err IndexError.

(** [np.argsort] of a permutation (no ties, so the algorithm does not matter). *)
Definition argsort_nat (l : list nat) : list nat :=
  isort (fun i j => Nat.leb (nth i l 0%nat) (nth j l 0%nat)) (seq 0 (length l)).

(** image_kernel.py:121-129: sort [B]. *)
Definition order_B (rnd : Z -> Z) (B : basis) (F : mat) : res (basis * mat * list nat) :=
  if b_sorted B then Ok (B, F, seq 0 (b_dim B))
  else
    B1 <- mk_basis (b_flat B) (b_bars B) None no_coords false
            (match b_brk B with Some _ => true | None => false end) (b_brk B) ;;
    '(B2, order) <- b_sort rnd B1 ;;
    F' <- take_rows_err F order ;;
    Ok (B2, F', argsort_nat order).

(** image_kernel.py:131-143: sort [A] from [start_index]. *)
Definition order_A (rnd : Z -> Z) (A : basis) (F : mat) (start_index : nat) : res (basis * mat * list nat) :=
  if b_sorted A then Ok (A, F, seq 0 (b_dim A))
  else
    A_rel <- mk_basis (b_flat A) (skipn start_index (b_bars A)) None no_coords false false None ;;
    '(A_rel', order) <- b_sort rnd A_rel ;;
    F' <- take_cols_err F (seq 0 start_index ++ map (fun i => (i + start_index)%nat) order) ;;
    A' <- plain_basis (firstn start_index (b_bars A) ++ b_bars A_rel') ;;
    Ok (A', F', argsort_nat order).

(** image_kernel.py:19-268, [image_kernel]: image basis, kernel basis (absent for relative or broken computations),
    preimages.  The argument [prev_basis] is not used by the code. *)
Definition image_kernel (rnd : Z -> Z) (A B : basis) (F : mat) (p : Z) (start_index : nat)
  : res (basis * option basis * mat) :=
  if negb (Nat.eqb (b_dim B) (nrows F)) || negb (Nat.eqb (b_dim A) (ncols F)) then Err ValueError
  else
    '(B', F1, return_order_B) <- order_B rnd B F ;;
    '(A', F2, return_order_A) <- order_A rnd A F1 start_index ;;
    let a := zunique (changes_list A' ++ changes_list B') in
    let n := b_dim A' in
    let ims0 := map (fun j => ICol (fst (nth j (b_bars A') (0, 0))) 0 (col F2 j) (vunit n j) (-2)) (seq 0 n) in
    '(ims1, ker1) <- foldM (rad_step A' B' F2 p start_index) a (ims0, []) ;;
    ims <- finish_ims a ims1 ;;
    let relative := match b_brk B' with Some _ => true | None => false end || Nat.ltb 0 start_index in
    ker <- (if relative then Ok ker1 else finish_ker a ker1) ;;
    Im_coordinates <- take_rows_err (Mat (b_dim B') (map ic_col ims)) return_order_B ;;
    Im_basis <- mk_basis false (skipn start_index (map (fun c => (ic_birth c, ic_death c)) ims)) (Some B)
                  (Mat (nrows Im_coordinates) (skipn start_index (cols Im_coordinates))) true false None ;;
    T <- take_rows_err (Mat (n - start_index) (map (fun c => skipn start_index (ic_T c)) ims)) return_order_A ;;
    let wd := match b_wd Im_basis with Some wd => wd | None => [] end in
    let PreIm := Mat (nrows T) (mask_filter wd (skipn start_index (cols T))) in
    '(Im_sorted, order) <- b_sort rnd Im_basis ;;
    PreIm' <- take_cols_err PreIm order ;;
    if relative then Ok (Im_sorted, None, PreIm')
    else
      Ker_coordinates <- take_rows_err (Mat n (map kc_col ker)) return_order_A ;;
      Ker_basis <- mk_basis false (map (fun k => (kc_birth k, kc_death k)) ker) (Some A) Ker_coordinates false false None ;;
      '(Ker_sorted, _) <- b_sort rnd Ker_basis ;;
      Ok (Im_sorted, Some Ker_sorted, PreIm').

(** module_persistence_homology.py:17-53, [quotient].  [M.prev_basis != N.prev_basis] compares object identity, which
    values of the model do not have; the outcome of the test is the argument [same]. *)
Definition quotient (rnd : Z -> Z) (same : bool) (M N : basis) (p : Z) : res basis :=
  if Nat.eqb (b_dim N) 0 then Ok M
  else if negb same then Err ValueError
  else
    N_M <- plain_basis (b_bars N ++ b_bars M) ;;
    match b_prev M with
    | None => Err TypeError
    | Some B =>
        '(Q, _, _) <- image_kernel rnd N_M B (Mat (nrows (b_coords N)) (cols (b_coords N) ++ cols (b_coords M))) p (b_dim N) ;;
        Ok Q
    end.

(** [barcode_basis([], base)] *)
Definition empty_over (base : basis) : res basis := mk_basis true [] (Some base) no_coords false false None.

(** module_persistence_homology.py:98-111, one iteration, from [Im[d]] to [Im[d-1]], [Hom[d]], [PreIm[d]].  The
    bases compared by [quotient] both refer to the object [Base[d]]. *)
Definition mph_step (rnd : Z -> Z) (D : mat) (Base_d Base_d1 Im_d : basis) (p : Z) : res (basis * basis * option mat) :=
  if Nat.eqb (b_dim Base_d) 0 then
    i <- empty_over Base_d1 ;; h <- empty_over Base_d ;; Ok (i, h, None)
  else if Nat.eqb (b_dim Base_d1) 0 then Ok (Base_d1, Base_d, None)
  else
    '(i, k, pre) <- image_kernel rnd Base_d Base_d1 D p 0 ;;
    match k with
    | None => Err ValueError
    | Some K => h <- quotient rnd true K Im_d p ;; Ok (i, h, Some pre)
    end.

(** module_persistence_homology.py:98-111: the loop, [d] downto 1; [Im_d] = [Im[d]], results for the degrees above [d]
    are in the accumulators. *)
Fixpoint mph_loop (rnd : Z -> Z) (D : list mat) (Base : list basis) (p : Z) (d : nat) (Im_d : basis)
    (Hom Im : list basis) (PreIm : list (option mat)) : res (list basis * list basis * list (option mat)) :=
  match d with
  | O => Ok (Hom, Im_d :: Im, PreIm)
  | S d' =>
      B <- nth_err Base d ;; B1 <- nth_err Base d' ;;
      M <- nth_err D d ;;
      '(i, h, pre) <- mph_step rnd M B B1 Im_d p ;;
      mph_loop rnd D Base p d' i (h :: Hom) (Im_d :: Im) (pre :: PreIm)
  end.

(** module_persistence_homology.py:60-126, [module_persistence_homology]. An entry [[]] of [PreIm] is [None]. *)
Definition module_persistence_homology (rnd : Z -> Z) (D : list mat) (Base : list basis) (p : Z)
  : res (list basis * list basis * list (option mat)) :=
  match Base with
  | [] => Err UnboundLocalError
  | Base0 :: _ =>
      let top := (length Base - 1)%nat in
      B <- nth_err Base top ;;
      e <- empty_over B ;;
      '(Hom, Im, PreIm) <- mph_loop rnd D Base p top e [] [] [] ;;
      H0 <- (if Nat.eqb (b_dim Base0) 0 then Ok Base0
             else
               Ker <- mk_basis false (b_bars Base0) (Some Base0) (mident (b_dim Base0)) false false None ;;
               '(Ker', _) <- b_sort rnd Ker ;;
               Im0 <- nth_err Im 0 ;;
               quotient rnd true Ker' Im0 p) ;;
      Ok (H0 :: Hom, Im, None :: PreIm)
  end.
