(** * Model of the pages from the second on and of the extension problem: the rest of
    [permaviss/spectral_sequence/spectral_sequence_class.py] and [create_MV_ss] in [MV_spectral_seq.py] *)
From Coq Require Import QArith.
From Verif Require Import Base SortX Gauss_model Basis_model PH_model Simp_model LC_model SS_model IK_model Cover_model.
Local Open Scope Z_scope.

(** Nested lists indexed by page, column and row, with Python's bounds checks. *)
Notation table A := (list (list (list A))).
Definition tget {A} (t : table A) (k n deg : nat) : res A :=
  pg <- nth_err t k ;; c <- nth_err pg n ;; nth_err c deg.
Definition tset {A} (t : table A) (k n deg : nat) (x : A) : res (table A) :=
  pg <- nth_err t k ;; c <- nth_err pg n ;; _ <- nth_err c deg ;;
  Ok (list_set t k (list_set pg n (list_set c deg x))).

(** spectral_sequence_class.py:184-207: the attributes [Hom], [Im], [PreIm], [Hom_reps] and [page_dim_matrix] from page 1 on
    (2 on for the last).  An entry which is still [[]] is [None], resp. the empty list.  The entries at page 0 have
    another shape (they are in the record [ss]) and are empty here: reading them is an [IndexError].  No method
    reads them through this index when [max_dim > 0].  [page_dim_matrix] is stored by column and row. *)
Record pages := Pages {
  h_hom : table basis; h_im : table (option basis); h_preim : table (option mat);
  h_reps : table (list chains); h_dim : table nat
}.

Definition init_pages (no_pages columns rows : nat) : pages :=
  let mk {A} (x : A) (r : nat) : table A := [] :: repeat (repeat (repeat x r) columns) (no_pages - 1) in
  Pages (mk empty_basis rows) (mk None rows) (mk None rows) (mk [] (1 + rows)%nat)
        (repeat (repeat (repeat 0%nat rows) columns) (1 + no_pages)).

(** spectral_sequence_class.py:842-891, [add_output_higher].  [deg - current_page + 1] is only negative after the last entry,
    where it is not used. *)
Fixpoint add_output_higher (P : pages) (outs : list (basis * basis * option mat)) (n deg cp : nat) : res pages :=
  match outs with
  | [] => Ok P
  | (h, im, pre) :: outs' =>
      preim' <- tset (h_preim P) cp n deg pre ;;
      hom' <- tset (h_hom P) cp n deg h ;;
      dim' <- tset (h_dim P) (1 + cp) n deg (b_dim h) ;;
      im' <- tset (h_im P) cp n deg (Some im) ;;
      add_output_higher (Pages hom' im' preim' (h_reps P) dim') outs' (n + cp) (deg - (cp - 1)) cp
  end.

Definition set_reps (P : pages) (k n deg : nat) (x : list chains) : res pages :=
  r <- tset (h_reps P) k n deg x ;; Ok (Pages (h_hom P) (h_im P) (h_preim P) r (h_dim P)).

(** [A[i:j]] *)
Definition slice_rows (A : mat) (i j : nat) : mat :=
  Mat (Nat.min j (nrows A) - i) (map (fun c => firstn (j - i) (skipn i c)) (cols A)).

(** [barcode[:, 0]] and [barcode[:, 1]] *)
Definition birth_radii (b : basis) : res (list Z) := if b_flat b then Err IndexError else Ok (map fst (b_bars b)).
Definition death_radii (b : basis) : res (list Z) := if b_flat b then Err IndexError else Ok (map snd (b_bars b)).

(** [np.any] *)
Definition many (A : mat) : bool := existsb vany (cols A).

(** Combinations of the local representatives of [(n, deg)]: the rows [prev:next] of [C] are the coefficients over each
    simplex of the nerve; one chain per column of [C], with references [ref].  The windows are those of [cyc]. *)
Definition localize (S : ss) (n deg : nat) (C : mat) (ref : list nat) (cyc : list nat) : res chains :=
  nspx <- spx_number S n ;;
  '(c, _) <- foldM (fun (st : chains * nat) (kn : nat * nat) =>
      let '(c, prev) := st in
      if Nat.ltb prev (snd kn) then
        l <- the_local S n (fst kn) ;;
        h <- hom0 l deg ;;
        P <- matmul (b_coords h) (slice_rows C prev (snd kn)) ;;
        c' <- add_entry c (fst kn) ref (LMat (nrows P) (cols P)) ;;
        Ok (c', snd kn)
      else Ok (c, snd kn)) (combine (seq 0 (length cyc)) cyc) (empty_chains nspx, 0%nat) ;;
  Ok c.

(** spectral_sequence_class.py:896-938, [compute_two_page_representatives] *)
Definition compute_two_page_representatives (S : ss) (P : pages) (n deg : nat) : res pages :=
  h <- tget (h_hom P) 1 n deg ;;
  if Nat.eqb (b_dim h) 0 then Ok P
  else
    cyc <- cycle_dims S n deg ;;
    rep <- localize S n deg (b_coords h) (seq 0 (b_dim h)) (removelast cyc) ;;
    rep_chains <-
      match n with
      | O => Ok [rep]
      | S n' =>
          R <- birth_radii h ;;
          '(betas, lift) <- cech_diff_and_lift S n' deg rep R ;;
          if many betas then Err ValueError else Ok [rep; lift]
      end ;;
    set_reps P 1 n deg rep_chains.

(** ** Higher pages *)

(** spectral_sequence_class.py:349-412, [lift_to_page].  [Betas] has one column per expression, as after the first
    transposition.  Returns [Betas] and [Gammas] before the last transposition; [None] is [np.array([])]. *)
Fixpoint lift_loop (rnd : Z -> Z) (P : pages) (n deg : nat) (p : Z) (ks : list nat) (Betas : mat) (Gammas : option mat)
    (Beta_barcode : list bar) : res (option mat * option mat) :=
  match ks with
  | [] => match Gammas with None => Err UnboundLocalError | Some _ => Ok (Some Betas, Gammas) end
  | k :: ks' =>
      Im <- tget (h_im P) k n deg ;;
      Hom <- tget (h_hom P) k n deg ;;
      if Nat.ltb 0 (b_dim Hom) then
        match Im with
        | None => Err AttributeError
        | Some Im =>
            Im_Hom <- (if Nat.ltb 0 (b_dim Im) then
                         if Nat.eqb (nrows (b_coords Im)) (nrows (b_coords Hom)) then Ok (mappend (b_coords Im) (b_coords Hom))
                         else Err ValueError
                       else Ok (b_coords Hom)) ;;
            let barcode_col := (if Nat.ltb 0 (b_dim Im) then b_bars Im ++ b_bars Hom else b_bars Hom) ++ Beta_barcode in
            let start_index := (b_dim Im + b_dim Hom)%nat in
            A <- (if Nat.eqb (nrows Im_Hom) (nrows Betas) then Ok (mappend Im_Hom Betas) else Err ValueError) ;;
            match b_prev Hom with
            | None => Err AttributeError
            | Some prev =>
                let barcode_row := b_bars prev in
                rows_basis <- mk_basis (b_flat prev) barcode_row None no_coords false false None ;;
                '(_, order) <- b_sort rnd rows_basis ;;
                A' <- take_rows_err A order ;;
                coefficients <- gauss_barcodes A' (take (0, 0) barcode_row order) barcode_col start_index p ;;
                lift_loop rnd P n deg p ks'
                  (Mat (b_dim Hom) (map (skipn (b_dim Im)) (cols coefficients)))
                  (Some (Mat (b_dim Im) (map (firstn (b_dim Im)) (cols coefficients)))) Beta_barcode
            end
        end
      else Ok (None, None)
  end.

Definition lift_to_page (rnd : Z -> Z) (S : ss) (P : pages) (n deg target_page : nat) (Betas : mat) (Beta_barcode : list bar)
  : res (option mat * option mat) :=
  lift_loop rnd P n deg (s_p S) (seq 1 (target_page - 1)) (mtr Betas) None Beta_barcode.

(** spectral_sequence_class.py:313-343, [high_differential]; the result is its transposed. *)
Definition high_differential (rnd : Z -> Z) (S : ss) (P : pages) (n deg cp : nat) : res (option mat) :=
  h <- tget (h_hom P) (cp - 1) n deg ;;
  if Nat.eqb (b_dim h) 0 then Ok None
  else
    reps <- tget (h_reps P) (cp - 1) n deg ;;
    c <- nth_err reps (cp - 1) ;;
    let Sn := (n - cp)%nat in
    let Sdeg := (deg + cp - 1)%nat in
    R <- birth_radii h ;;
    '(Betas, _) <- cech_diff_and_lift S Sn Sdeg c R ;;
    '(Betas', _) <- lift_to_page rnd S P Sn Sdeg cp Betas (b_bars h) ;;
    Ok Betas'.

(** [-A] *)
Definition mopp (A : mat) : mat := Mat (nrows A) (map (map Z.opp) (cols A)).

(** spectral_sequence_class.py:990-992: [np.matmul] of an entry of [PreIm], which may be [[]], and [-Gammas.T].  A product
    with a one-dimensional empty array is only used when it is a matrix. *)
Definition preimage_product (pre : option mat) (G : option mat) : res (option mat) :=
  match pre, G with
  | None, None => Ok None
  | None, Some g => if Nat.eqb (nrows g) 0 then Ok None else Err ValueError
  | Some M, None => if Nat.eqb (ncols M) 0 then Ok None else Err ValueError
  | Some M, Some g => X <- matmul M (mopp g) ;; Ok (Some X)
  end.

(** [chains.coord[k] += rows] in place; the shapes have to agree. *)
Definition add_rows (c : lcoord) (w : nat) (rows : list vec) : res lcoord :=
  match c with
  | LNil => Err ValueError
  | LMat w' rows' => if Nat.eqb w w' && Nat.eqb (length rows) (length rows') then Ok (LMat w (zipw vadd rows' rows)) else Err ValueError
  end.

(** spectral_sequence_class.py:994-1011: subtract preimages given by coefficients on the first page. *)
Definition add_preimages (S : ss) (n deg : nat) (X : mat) (c : chains) : res chains :=
  cyc <- cycle_dims S n deg ;;
  '(c', _) <- foldM (fun (st : chains * nat) (kn : nat * nat) =>
      let '(c, prev) := st in
      if Nat.ltb prev (snd kn) then
        l <- the_local S n (fst kn) ;;
        h <- hom0 l deg ;;
        Q <- matmul (b_coords h) (slice_rows X prev (snd kn)) ;;
        e <- nth_err c (fst kn) ;;
        c' <- (if Nat.ltb 0 (length (le_ref e)) then
                 co <- add_rows (le_coord e) (nrows Q) (cols Q) ;;
                 Ok (list_set c (fst kn) (LEntry (le_ref e) co))
               else add_entry c (fst kn) (seq 0 (ncols Q)) (LMat (nrows Q) (cols Q))) ;;
        Ok (c', snd kn)
      else Ok (c, snd kn)) (combine (seq 0 (length cyc)) cyc) (c, 0%nat) ;;
  Ok c'.

(** [l[-1]] *)
Definition last_err {A} (l : list A) : res A := match rev l with x :: _ => Ok x | [] => Err IndexError end.

Definition any_opt (o : option mat) : bool := match o with Some A => many A | None => false end.

(** spectral_sequence_class.py:977-1022, one iteration of the loop over [target_page]. *)
Definition higher_step (rnd : Z -> Z) (S : ss) (P : pages) (Sn Sdeg cp : nat) (bars : list bar) (total : list chains) (tp : nat)
  : res (list chains) :=
  lastc <- last_err total ;;
  '(Betas, _) <- cech_diff_and_lift S Sn Sdeg lastc (map fst bars) ;;
  '(_, Gammas) <- lift_to_page rnd S P Sn Sdeg tp Betas bars ;;
  let Tn := (Sn + tp - 1)%nat in
  let Tdeg := (Sdeg + 2 - tp)%nat in
  pre <- tget (h_preim P) (tp - 1) Tn Tdeg ;;
  X <- preimage_product pre Gammas ;;
  if any_opt Gammas then
    match X with
    | None => Err ValueError
    | Some X =>
        if Nat.eqb tp 2 then
          c <- add_preimages S (1 + Sn) Sdeg X lastc ;;
          Ok (removelast total ++ [c])
        else
          reps <- tget (h_reps P) tp Tn Tdeg ;;
          pres <- mapM (fun c => sums c X) reps ;;
          foldM (fun total (ic : nat * chains) =>
              let k := (cp - tp + 1 + fst ic)%nat in
              a <- nth_err total k ;;
              b <- add_chains a (snd ic) ;;
              Ok (list_set total k b)) (combine (seq 0 (length pres)) pres) total
    end
  else Ok total.

(** spectral_sequence_class.py:944-1031, [compute_higher_representatives].  The bars are those of a non-empty basis, so
    [hom_barcode[:, 0]] is defined. *)
Definition compute_higher_representatives (rnd : Z -> Z) (S : ss) (P : pages) (n deg cp : nat) : res pages :=
  h <- tget (h_hom P) cp n deg ;;
  if Nat.eqb (b_dim h) 0 then set_reps P cp n deg []
  else
    prev <- tget (h_reps P) (cp - 1) n deg ;;
    total <- mapM (fun c => sums c (mtr (b_coords h))) prev ;;
    if Nat.ltb n cp then set_reps P cp n deg total
    else
      let Sn := (n - cp)%nat in
      let Sdeg := (deg + cp - 1)%nat in
      total' <- foldM (higher_step rnd S P Sn Sdeg cp (b_bars h)) (rev (seq 2 (cp - 1))) total ;;
      lastc <- last_err total' ;;
      '(Betas, lift) <- cech_diff_and_lift S Sn Sdeg lastc (births h) ;;
      if many Betas then Err RuntimeError else set_reps P cp n deg (total' ++ [lift]).

(** ** Extension problem *)

(** spectral_sequence_class.py:1066-1073: the representatives whose bar ends at [max_r] are set to zero. *)
Definition zero_out (ext_bool : list bool) (c : chains) : res chains :=
  mapM (fun e =>
    if Nat.ltb 0 (length (le_ref e)) then
      bs <- mapM (nth_err ext_bool) (le_ref e) ;;
      match le_coord e with
      | LNil => Err IndexError
      | LMat w rows =>
          Ok (LEntry (le_ref e) (LMat w (zipw (fun (b : bool) r => if b then r else map (fun _ => 0) r) bs rows)))
      end
    else Ok e) c.

(** [np.array_equal] on references *)
Definition nat_list_eqb (a b : list nat) : bool :=
  Nat.eqb (length a) (length b) && forallb (fun xy => Nat.eqb (fst xy) (snd xy)) (combine a b).

(** spectral_sequence_class.py:1094-1111: subtract [local_chains_beta] from a representative. *)
Definition subtract_beta (p : Z) (a b : chains) : res chains :=
  mapM (fun ia =>
    let e := snd ia in
    f <- nth_err b (fst ia) ;;
    if Nat.ltb 0 (length (le_ref e)) && Nat.ltb 0 (length (le_ref f)) then
      if nat_list_eqb (le_ref e) (le_ref f) then
        match le_coord f with
        | LNil => Err ValueError
        | LMat w rows =>
            s <- add_rows (le_coord e) w rows ;;
            Ok (LEntry (le_ref e) (match s with LNil => LNil | LMat w r => LMat w (map (fun v => vmod v p) r) end))
        end
      else Err ValueError
    else if Nat.ltb 0 (length (le_ref f)) then Ok f
    else Ok e) (combine (seq 0 (length a)) a).

(** spectral_sequence_class.py:1088-1113: if the coefficients are not zero, subtract the corresponding combination of
    representatives from [Hom_reps[idx:]]. *)
Definition reduce_betas (S : ss) (Betas : option mat) (Sreps : list chains) (idx : nat) (reps : list chains)
  : res (list chains) :=
  if any_opt Betas then
    match Betas with
    | None => Ok reps
    | Some B =>
        foldM (fun reps (ec : nat * chains) =>
            b <- sums (snd ec) (mtr (mopp B)) ;;
            a <- nth_err reps (fst ec + idx) ;;
            a' <- subtract_beta (s_p S) a b ;;
            Ok (list_set reps (fst ec + idx) a')) (combine (seq 0 (length Sreps)) Sreps) reps
    end
  else Ok reps.

(** spectral_sequence_class.py:1115-1157, one iteration of the loop over [target_page]. *)
Definition reduce_gammas (rnd : Z -> Z) (S : ss) (P : pages) (Sn Sdeg : nat) (deaths : list Z) (bext : list bar)
    (c : chains) (tp : nat) : res chains :=
  '(Betas, _) <- first_page_lift S Sn Sdeg c deaths ;;
  '(Betas', Gammas) <- lift_to_page rnd S P Sn Sdeg tp Betas bext ;;
  if any_opt Betas' then Err RuntimeError
  else if any_opt Gammas then
    match Gammas with
    | None => Ok c
    | Some G =>
        im <- tget (h_im P) (tp - 1) Sn Sdeg ;;
        match im with
        | None => Err AttributeError
        | Some im =>
            image_classes <- matmul (b_coords im) (mopp G) ;;
            image_chains <-
              (if Nat.eqb tp 2 then
                 cyc <- cycle_dims S Sn Sdeg ;;
                 localize S Sn Sdeg image_classes (seq 0 (ncols G)) cyc
               else
                 reps <- tget (h_reps P) (tp - 2) Sn Sdeg ;;
                 c0 <- nth_err reps 0 ;;
                 sums c0 (mtr image_classes)) ;;
            add_chains c image_chains
        end
    end
  else Ok c.

(** spectral_sequence_class.py:1078-1176, one iteration of the loop along the diagonal: [(Sn, Sdeg)] is the current
    position, [reps] is [Hom_reps]; the blocks found so far are in [exts]. *)
Definition extension_step (rnd : Z -> Z) (S : ss) (P : pages) (no_pages n deg : nat) (deaths : list Z) (bext : list bar)
    (st : list chains * list (option mat)) (idx : nat) : res (list chains * list (option mat)) :=
  let '(reps, exts) := st in
  let Sn := (n - idx)%nat in
  let Sdeg := (deg + idx)%nat in
  c <- nth_err reps idx ;;
  '(Betas, _) <- first_page_lift S Sn Sdeg c deaths ;;
  '(Betas', _) <- lift_to_page rnd S P Sn Sdeg no_pages Betas bext ;;
  Sreps <- tget (h_reps P) (no_pages - 1) Sn Sdeg ;;
  reps1 <- reduce_betas S Betas' Sreps idx reps ;;
  c1 <- nth_err reps1 idx ;;
  c2 <- foldM (reduce_gammas rnd S P Sn Sdeg deaths bext) (rev (seq 2 (no_pages - 1))) c1 ;;
  '(Betas2, lift) <- first_page_lift S Sn Sdeg c2 deaths ;;
  if many Betas2 then Err RuntimeError
  else
    reps2 <-
      match Sn with
      | O => Ok reps1
      | S Sn' =>
          image <- cech_diff S Sn' (1 + Sdeg) (minus_chains (s_p S) lift) ;;
          a <- nth_err reps1 (1 + idx) ;;
          b <- add_chains a image ;;
          Ok (list_set reps1 (1 + idx) b)
      end ;;
    Ok (reps2, exts ++ [Betas']).

(** spectral_sequence_class.py:1037-1176, [extension]: the blocks [extensions[start_n_dim][start_deg]], of which [None] is
    [np.array([])].  Each position is visited once, so the list is empty before.  [Sn_dim] does not become negative: there are
    at most [start_n_dim + 1] representatives. *)
Definition extension (rnd : Z -> Z) (S : ss) (P : pages) (no_pages n deg : nat) : res (list (option mat)) :=
  h <- tget (h_hom P) (no_pages - 1) n deg ;;
  deaths <- death_radii h ;;
  reps0 <- tget (h_reps P) (no_pages - 1) n deg ;;
  reps <- copy_seq reps0 ;;
  let ext_bool := map (fun d => d <? s_max_r S) deaths in
  zeros <- mapM (fun idx =>
      hS <- tget (h_hom P) (no_pages - 1) (n - idx) (deg + idx) ;;
      Ok (Some (mzero (b_dim hS) (length deaths)))) (seq 0 (length reps)) ;;
  if existsb (fun b => b) ext_bool then
    reps1 <- mapM (zero_out ext_bool) reps ;;
    '(_, exts) <- foldM (extension_step rnd S P no_pages n deg deaths (map (fun d => (d, s_max_r S)) deaths))
                        (seq 0 (length reps)) (reps1, []) ;;
    Ok exts
  else Ok zeros.

(** ** [create_MV_ss] *)

(** MV_spectral_seq.py:138-153, the body of the loop over the rows on the first page.  The empty array returned by
    [first_differential] when there are no classes is not read. *)
Definition first_page_row (rnd : Z -> Z) (S : ss) (P : pages) (deg : nat) : res pages :=
  let nerve_dim := length (s_nerve S) in
  base <- mapM (fun n =>
      c <- nth_err (s_cols S) n ;;
      bars <- nth_err (c_bars c) deg ;;
      mk_basis (Nat.eqb (length bars) 0) bars None no_coords false false None) (seq 0 nerve_dim) ;;
  diffs <- mapM (fun n =>
      match n with
      | O => Ok (Mat 0 [])
      | S n' => D <- first_differential S n' deg ;; Ok (match D with Some B => mtr B | None => Mat 0 [] end)
      end) (seq 0 nerve_dim) ;;
  '(Hom, Im, PreIm) <- module_persistence_homology rnd diffs base (s_p S) ;;
  P1 <- add_output_higher P (combine (combine Hom Im) PreIm) 0 deg 1 ;;
  foldM (fun P n =>
      h <- tget (h_hom P) 1 n deg ;;
      if Nat.ltb 0 (b_dim h) then compute_two_page_representatives S P n deg else Ok P) (seq 0 nerve_dim) P1.

(** MV_spectral_seq.py:174-183 and 192-199: the positions visited from a start; [fuel] bounds the number of columns. *)
Fixpoint positions (fuel nerve_dim n deg cp : nat) : list (nat * nat) :=
  match fuel with
  | O => []
  | S f => if Nat.ltb n nerve_dim then
             (n, deg) :: (if Nat.leb (cp - 1) deg then positions f nerve_dim (n + cp) (deg - (cp - 1)) cp else [])
           else []
  end.

(** MV_spectral_seq.py:166-201, the body of the loop over the starting positions on a higher page. *)
Definition higher_page_row (rnd : Z -> Z) (S : ss) (cp : nat) (P : pages) (start : nat * nat) : res pages :=
  let nerve_dim := length (s_nerve S) in
  let pos := positions (1 + nerve_dim) nerve_dim (fst start) (snd start) cp in
  base <- mapM (fun nd => tget (h_hom P) (cp - 1) (fst nd) (snd nd)) pos ;;
  diffs <- mapM (fun nd => D <- high_differential rnd S P (fst nd) (snd nd) cp ;;
                           Ok (match D with Some B => B | None => Mat 0 [] end)) (tl pos) ;;
  '(Hom, Im, PreIm) <- module_persistence_homology rnd (Mat 0 [] :: diffs) base (s_p S) ;;
  P1 <- add_output_higher P (combine (combine Hom Im) PreIm) (fst start) (snd start) cp ;;
  foldM (fun P nd => compute_higher_representatives rnd S P (fst nd) (snd nd) cp) pos P1.

(** MV_spectral_seq.py:228-233: [A[r0:r1, c0:c1] = blk]; the shapes have to agree. *)
Definition set_block (A : mat) (r0 r1 c0 c1 : nat) (blk : mat) : res mat :=
  if Nat.eqb (nrows blk) (r1 - r0) && Nat.eqb (ncols blk) (c1 - c0) then
    Ok (Mat (nrows A) (map (fun jc =>
      let '(j, c) := jc in
      if Nat.leb c0 j && Nat.ltb j c1 then
        map (fun ix => let '(i, x) := ix in if Nat.leb r0 i && Nat.ltb i r1 then get blk (i - r0) (j - c0) else x) (enum c)
      else c) (enum (cols A))))
  else Err ValueError.

(** MV_spectral_seq.py:209-237: cumulative dimensions [dim_PH] and the extension matrix of a diagonal. *)
Definition diagonal_dims (P : pages) (no_pages deg columns : nat) : res (list nat) :=
  ds <- mapM (fun n => tget (h_dim P) no_pages n (deg - n)) (seq 0 (Nat.min (deg + 1) columns)) ;;
  Ok (0%nat :: cumulate 0 ds).

(** [page_dim_matrix[k]] for [k >= 1] *)
Definition page_dim (S : ss) (P : pages) (k n deg : nat) : res nat :=
  if Nat.eqb k 1 then page_dim1 S n deg else tget (h_dim P) k n deg.

Definition extension_matrix (rnd : Z -> Z) (S : ss) (P : pages) (no_pages deg : nat) (dims : list nat) : res mat :=
  let columns := (1 + length (s_nerve S))%nat in
  let total := last dims 0%nat in
  foldM (fun M n =>
      d <- page_dim S P (no_pages - 1) n (deg - n) ;;
      if Nat.ltb 0 d then
        exts <- extension rnd S P no_pages n (deg - n) ;;
        c0 <- nth_err dims n ;;
        c1 <- nth_err dims (n + 1) ;;
        foldM (fun M (ib : nat * option mat) =>
            match snd ib with
            | Some blk =>
                if Nat.ltb 0 (nrows blk) then
                  r0 <- nth_err dims (n - fst ib) ;;
                  r1 <- nth_err dims (n + 1 - fst ib) ;;
                  set_block M r0 r1 c0 c1 blk
                else Ok M
            | None => Ok M
            end) (enum exts) M
      else Ok M) (seq 1 (Nat.min (deg + 1) columns - 1)) (mzero total total).

(** MV_spectral_seq.py:256-276, the end of the body of the loop over the diagonals: the bars of the diagonal and the
    extension matrix give the persistent homology. *)
Definition assemble (rnd : Z -> Z) (p max_r : Z) (bars : list bar) (ext_mat : mat) : res basis :=
  diagonal_basis <- plain_basis bars ;;
  direct_sum_basis <- mk_basis false bars None no_coords false true (Some ext_mat) ;;
  '(diagonal_sorted, order_diag) <- b_sort rnd diagonal_basis ;;
  '(sum_sorted, order) <- b_sort rnd direct_sum_basis ;;
  F <- take_cols_err (mident (b_dim diagonal_basis)) order_diag ;;
  F' <- take_rows_err F order ;;
  let dom := Basis (map (fun b => (fst b, max_r)) (b_bars diagonal_sorted)) false (b_dim diagonal_sorted) None
                   (b_coords diagonal_sorted) true None None in
  '(PH, _, _) <- image_kernel rnd dom sum_sorted F' p 0 ;;
  Ok PH.

(** MV_spectral_seq.py:208-278, the body of the loop over the diagonals: the persistent homology in degree [deg] if any
    class is left, nothing otherwise. *)
Definition diagonal (rnd : Z -> Z) (S : ss) (P : pages) (no_pages deg : nat) : res (option basis) :=
  let columns := (1 + length (s_nerve S))%nat in
  dims <- diagonal_dims P no_pages deg columns ;;
  if Nat.ltb 0 (last dims 0%nat) then
    ext_mat <- extension_matrix rnd S P no_pages deg dims ;;
    blocks <- mapM (fun n => h <- tget (h_hom P) (no_pages - 1) n (deg - n) ;;
                             Ok (if Nat.ltb 0 (b_dim h) then b_bars h else [])) (seq 0 (Nat.min (deg + 1) columns)) ;;
    PH <- assemble rnd (s_p S) (s_max_r S) (concat blocks) ext_mat ;;
    Ok (Some PH)
  else Ok None.

(** MV_spectral_seq.py:100-280: [create_MV_ss] after the cover has been computed: the 0 page, the other pages, and
    [persistent_homology]. *)
Definition mv_ss (argsort : list Z -> list nat) (rnd : Z -> Z) (Dist : list (list Z)) (max_r max_dim p : Z)
    (IN : list (list (list nat))) (n0 : nat) (nerve : list (list simplex)) : res (ss * pages * list basis) :=
  let nerve_dim := length nerve in
  let no_pages := Z.to_nat (Z.min (max_dim + 2) (Z.of_nat nerve_dim)) in
  S <- zero_page argsort rnd Dist max_r max_dim p IN n0 nerve ;;
  let rows := s_rows S in
  P1 <- foldM (first_page_row rnd S) (seq 0 rows) (init_pages no_pages (1 + nerve_dim) rows) ;;
  P2 <- foldM (fun P cp =>
      foldM (higher_page_row rnd S cp) (flat_map (fun n => map (fun d => (n, d)) (seq 0 rows)) (seq 0 cp)) P)
      (seq 2 (no_pages - 2)) P1 ;;
  H0 <- tget (h_hom P2) (no_pages - 1) 0 0 ;;
  Hs <- mapM (diagonal rnd S P2 no_pages) (seq 1 (rows - 1)) ;;
  Ok (S, P2, H0 :: flat_map (fun o => match o with Some b => [b] | None => [] end) Hs).

(** MV_spectral_seq.py:27-280, [create_MV_ss].  The distances between the points are given by [Dist]. *)
Definition create_MV_ss (argsort : list Z -> list nat) (rnd : Z -> Z) (cast : Q -> Q) (dim : nat) (pc : list point)
    (Dist : list (list Z)) (max_r max_dim max_div : Z) (overlap : Q) (p : Z) : res (ss * pages * list basis) :=
  '(_, IN, (n0, nerve)) <- generate_cover cast max_div overlap dim pc ;;
  mv_ss argsort rnd Dist max_r max_dim p IN n0 nerve.
