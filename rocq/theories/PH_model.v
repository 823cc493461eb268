(** * Model of [permaviss/persistence_algebra/PH_classic.py] *)
From Verif Require Import Base SortX Gauss_model Basis_model.
Local Open Scope Z_scope.

(** [l[i]] with Python's bounds check (non-negative index). *)
Definition nth_err {A} (l : list A) (i : nat) : res A :=
  match nth_error l i with Some x => Ok x | None => Err IndexError end.

(** Writing the next row/column of a preallocated array with room for [cap]
    entries, of which the used part is [l] (the unused part is cut off at
    PH_classic.py:219-223, 236-237). *)
Definition push {A} (cap : nat) (l : list A) (x : A) : res (list A) :=
  if Nat.ltb (length l) cap then Ok (l ++ [x]) else Err IndexError.

(** A homology generator before packaging: bar and coordinates. *)
Notation gen := ((Z * Z) * vec)%type.
(** An image generator before packaging: bar, coordinates, preimage. *)
Notation imgen := ((Z * Z) * vec * vec)%type.

(** PH_classic.py:173, [Daux[:, pivots] = 0]. *)
Definition clear_cols (D : mat) (pivots : list nat) : res mat :=
  if forallb (fun k => Nat.ltb k (ncols D)) pivots then
    Ok (Mat (nrows D) (map (fun k => if memn k pivots then vzero (nrows D) else col D k)
                           (seq 0 (ncols D))))
  else Err IndexError.

(** Variables changed by the inner loop, PH_classic.py:190-216:
    [pivots], [Hom_*[d-1]], [Im_*[d-1]] with [PreIm[d]], [Hom_*[d]]. *)
Record ph_state := PhState {
  st_piv : list nat; st_next : list gen; st_im : list imgen; st_cur : list gen }.

(** PH_classic.py:190-216, one iteration for column [k].  [capc] = room in
    [Hom_bars[d]] (and number of rows of [Hom_coord[d]]), [capi] = room in [Im_bars[d-1]]. *)
Definition ph_col (Im_aux T : mat) (Rd Rd1 : list Z) (max_rad : Z) (capc capi : nat)
    (st : ph_state) (k : nat) : res ph_state :=
  reduced_im <- col_err Im_aux k ;;
  t <- col_err T k ;;
  if vany reduced_im then
    let piv := Z.to_nat (index_pivot reduced_im) in
    birth_rad <- nth_err Rd1 piv ;;
    death_rad <- nth_err Rd k ;;
    next <- (if birth_rad <? death_rad
             then push (nrows Im_aux) (st_next st) ((birth_rad, death_rad), reduced_im)
             else Ok (st_next st)) ;;
    im <- push capi (st_im st) ((death_rad, max_rad), reduced_im, t) ;;
    Ok (PhState (st_piv st ++ [piv]) next im (st_cur st))
  else
    birth_rad <- nth_err Rd k ;;
    if negb (Nat.eqb (length t) capc) then Err ValueError
    else
      cur <- push capc (st_cur st) ((birth_rad, max_rad), t) ;;
      Ok (PhState (st_piv st) (st_next st) (st_im st) cur).

(** PH_classic.py:167-223, one iteration of the outer loop for the differential [D] = [D[d]]. *)
Definition ph_dim (D : mat) (Rd Rd1 : list Z) (max_rad p : Z) (pivots : list nat)
    (capc : nat) (cur : list gen) : res ph_state :=
  Daux <- clear_cols D pivots ;;
  let non_pivots := range_diff (ncols D) pivots in
  '(Im_aux, T) <- gauss_col Daux p ;;
  foldM (ph_col Im_aux T Rd Rd1 max_rad capc (length non_pivots)) non_pivots
        (PhState [] [] [] cur).

(** PH_classic.py:226-233, infinite classes in dimension 0. *)
Definition ph_zero (n0 : nat) (max_rad : Z) (pivots : list nat) (capc : nat) (cur : list gen)
  : res (list gen) :=
  foldM (fun l k => if Nat.ltb k capc then push capc l ((0, max_rad), vunit capc k) else Err IndexError)
        (range_diff n0 pivots) cur.

(** PH_classic.py:167-237: the outer loop from dimension [d] down to 0.
    [Ds] holds [D[1], D[2], ...].  Returns [Hom_*[0..d]] and [Im_*[0..d-1]]. *)
Fixpoint ph_loop (d : nat) (n0 : nat) (Ds : list mat) (R : list (list Z)) (max_rad p : Z)
    (pivots : list nat) (capc : nat) (cur : list gen)
  : res (list (list gen) * list (list imgen)) :=
  match d with
  | O => h0 <- ph_zero n0 max_rad pivots capc cur ;; Ok ([h0], [])
  | S d' =>
      D <- nth_err Ds d' ;;
      Rd <- nth_err R d ;;
      Rd1 <- nth_err R d' ;;
      st <- ph_dim D Rd Rd1 max_rad p pivots capc cur ;;
      '(homs, ims) <- ph_loop d' n0 Ds R max_rad p (st_piv st) (nrows D) (st_next st) ;;
      Ok (homs ++ [st_cur st], ims ++ [st_im st])
  end.

(** PH_classic.py:246-251: the basis of [d]-simplices. *)
Definition ph_simplices (d n0 : nat) (Rd : list Z) (max_rad : Z) : res basis :=
  b <- plain_basis (map (fun r => (r, max_rad)) Rd) ;;
  Ok (if Nat.eqb d 0 then
        Basis (b_bars b) (b_flat b) n0 (b_prev b) (b_coords b) (b_sorted b) (b_brk b) (b_wd b)
      else b).

(** PH_classic.py:252-257: packaging of [Hom[d]]. *)
Definition pack_hom (rnd : Z -> Z) (basis : basis) (n : nat) (gens : list gen) : res Basis_model.basis :=
  if Nat.ltb 0 (length gens) then
    h <- mk_basis false (map fst gens) (Some basis) (Mat n (map snd gens)) false false None ;;
    '(h', _) <- b_sort rnd h ;;
    Ok h'
  else Ok empty_basis.

(** PH_classic.py:258-267: packaging of [Im[d]] and [PreIm[d+1]]; [n] rows of the
    image coordinates, [n'] rows of the preimages. *)
Definition pack_im (rnd : Z -> Z) (basis : basis) (n n' : nat) (gens : list imgen)
  : res (Basis_model.basis * mat) :=
  let pre := map snd gens in
  if Nat.ltb 0 (length gens) then
    b <- mk_basis false (map (fun g => fst (fst g)) gens) (Some basis)
           (Mat n (map (fun g => snd (fst g)) gens)) true false None ;;
    let wd := match b_wd b with Some m => m | None => [] end in
    let pre1 := mask_filter wd pre in
    '(b', order) <- b_sort rnd b ;;
    pre2 <- take_cols_err (Mat n' pre1) order ;;
    Ok (b', pre2)
  else Ok (empty_basis, Mat n' pre).

(** Result of [persistent_homology]: [Hom], [Im], [PreIm]. *)
Record ph_out := PhOut { ph_hom : list basis; ph_im : list basis; ph_preim : list mat }.

(** PH_classic.py:245-268, the packaging loop over all dimensions. *)
Definition ph_pack (rnd : Z -> Z) (n0 : nat) (R : list (list Z)) (max_rad : Z) (dim : nat)
    (homs : list (list gen)) (ims : list (list imgen)) : res ph_out :=
  out <- mapM (fun d =>
      Rd <- nth_err R d ;;
      b <- ph_simplices d n0 Rd max_rad ;;
      let size d := length (nth d R []) in
      h <- pack_hom rnd b (size d) (nth d homs []) ;;
      im <- (if Nat.ltb (S d) dim then pack_im rnd b (size d) (size (S d)) (nth d ims [])
             else Ok (empty_basis, Mat 0 [])) ;;
      Ok (h, im)) (seq 0 dim) ;;
  Ok (PhOut (map fst out) (map (fun x => fst (snd x)) out)
            (Mat 0 [] :: map (fun x => snd (snd x)) (removelast out))).

(** PH_classic.py:18-271, [persistent_homology].  [D[0]] is the number [n0] of
    vertices, [Ds] are the matrices [D[1], D[2], ...].  Without any matrix
    [np.size(D[0], 1)] raises [IndexError].
    Simplification: row counts of preallocated coordinate arrays are taken from
    [R] instead of the shapes of [D]; they agree on every input accepted below. *)
Definition persistent_homology (rnd : Z -> Z) (n0 : nat) (Ds : list mat) (R : list (list Z)) (max_rad p : Z)
  : res ph_out :=
  let top := length Ds in
  if Nat.eqb top 0 then Err IndexError
  else
    let capc := ncols (nth (top - 1) Ds (Mat 0 [])) in
    '(homs, ims) <- ph_loop top n0 Ds R max_rad p [] capc [] ;;
    ph_pack rnd n0 R max_rad (S top) homs ims.
