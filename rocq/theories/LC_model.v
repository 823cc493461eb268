(** * Model of [permaviss/spectral_sequence/local_chains_class.py]

    A [local_chains] object is the list of its pairs [(ref[k], coord[k])]. *)
From Verif Require Import Base PH_model Simp_model.
Local Open Scope Z_scope.

(** Coordinates at one index: the empty list (or the empty array that [np.copy] makes of it), or
    an array given by its width and its rows. *)
Inductive lcoord := LNil | LMat (w : nat) (rows : list vec).
Record lentry := LEntry { le_ref : list nat; le_coord : lcoord }.
Notation chains := (list lentry).

Definition lrows (c : lcoord) : list vec := match c with LNil => [] | LMat _ rows => rows end.

(** local_chains_class.py:57-60, the body of the loop of the constructor; copies are invisible here. *)
Definition mk_entry (ref : list nat) (coord : lcoord) : res lentry :=
  if Nat.eqb (length ref) (length (lrows coord)) then Ok (LEntry ref coord) else Err ValueError.

(** local_chains_class.py:52-60, the constructor with two lists. *)
Definition mk_chains (refs : list (list nat)) (coords : list lcoord) : res chains :=
  if Nat.eqb (length refs) (length coords) then mapM (fun rc => mk_entry (fst rc) (snd rc)) (combine refs coords)
  else Err ValueError.

(** local_chains_class.py:61-66, the constructor with a number. *)
Definition empty_chains (n : nat) : chains := repeat (LEntry [] LNil) n.

(** local_chains_class.py:73-106, [add_entry]; the updated object is returned.  [self.ref[index]]
    out of range raises [IndexError]. *)
Definition add_entry (c : chains) (index : nat) (ref : list nat) (coord : lcoord) : res chains :=
  match coord with
  | LNil => if Nat.eqb (length ref) 0 then Ok c else Err ValueError
  | LMat _ rows =>
      if Nat.eqb (length ref) (length rows) then
        if Nat.ltb index (length c) then Ok (list_set c index (LEntry ref coord)) else Err IndexError
      else Err ValueError
  end.

(** Addition of [rows] to the rows of [acc] selected by the mask [np.isin(cref, ref)]. *)
Fixpoint masked_add (cref ref : list nat) (rows acc : list vec) : list vec :=
  match cref, acc with
  | g :: cref', z :: acc' =>
      if memn g ref then
        match rows with
        | r :: rows' => vadd z r :: masked_add cref' ref rows' acc'
        | [] => z :: masked_add cref' ref [] acc'
        end
      else z :: masked_add cref' ref rows acc'
  | _, _ => []
  end.

(** local_chains_class.py:128-129, [C_coord[np.isin(C_ref, A_ref)] += A_coord]: the shapes have to agree.
    Simplification: arrays of width 1 are not broadcast. *)
Definition isin_add (cref ref : list nat) (w : nat) (coord : lcoord) (acc : list vec) : res (list vec) :=
  match coord with
  | LNil => Err ValueError
  | LMat w' rows =>
      if Nat.eqb w w' && Nat.eqb (length (filter (fun g => memn g ref) cref)) (length rows)
      then Ok (masked_add cref ref rows acc) else Err ValueError
  end.

(** local_chains_class.py:123-136, the body of the loop of [__add__]. *)
Definition add_local (a b : lentry) : res lentry :=
  let cref := nunique (le_ref a ++ le_ref b) in
  ccoord <- (if Nat.ltb 0 (Nat.min (length (le_ref a)) (length (le_ref b))) then
               match le_coord a with
               | LNil => Err IndexError
               | LMat w _ =>
                   acc <- isin_add cref (le_ref a) w (le_coord a) (repeat (vzero w) (length cref)) ;;
                   acc' <- isin_add cref (le_ref b) w (le_coord b) acc ;;
                   Ok (LMat w acc')
               end
             else if Nat.ltb 0 (length (le_ref a)) then Ok (le_coord a)
             else if Nat.ltb 0 (length (lrows (le_coord b))) then Ok (le_coord b)
             else Ok LNil) ;;
  mk_entry cref ccoord.

(** local_chains_class.py:111-139, [__add__]; [B.ref[idx]] out of range raises [IndexError]. *)
Definition add_chains (A B : chains) : res chains :=
  mapM (fun ia => b <- nth_err B (fst ia) ;; add_local (snd ia) b) (combine (seq 0 (length A)) A).

(** local_chains_class.py:144-149, [minus] *)
Definition minus_chains (p : Z) (c : chains) : chains :=
  map (fun e => LEntry (le_ref e)
    (match le_coord e with
     | LMat w rows => if Nat.ltb 0 (length rows) then LMat w (map (map (fun x => (- x) mod p)) rows) else LMat w rows
     | LNil => LNil
     end)) c.

(** local_chains_class.py:170-176: row [s] of the new coordinates is the combination of the rows of [coord]
    with coefficients [coord_sums[s, ref]].  [sums] has one row per sum and [ncols] columns. *)
Definition sum_rows (w : nat) (ref : list nat) (rows : list vec) (row : vec) : vec :=
  map (fun j => Zsum (length ref) (fun i => vget (nth i rows []) j * vget row (nth i ref 0%nat))) (seq 0 w).

Definition sums_local (coord_sums : mat) (e : lentry) : res lentry :=
  let n := nrows coord_sums in
  if Nat.ltb 0 (length (le_ref e)) then
    if forallb (fun g => Nat.ltb g (ncols coord_sums)) (le_ref e) then
      match le_coord e with
      | LNil => Err ValueError
      | LMat w rows =>
          if Nat.eqb (length rows) (length (le_ref e)) then
            mk_entry (seq 0 n) (LMat w (map (sum_rows w (le_ref e) rows) (cols (mtr coord_sums))))
          else Err ValueError
      end
    else Err IndexError
  else mk_entry [] LNil.

(** local_chains_class.py:154-178, [sums] *)
Definition sums (c : chains) (coord_sums : mat) : res chains := mapM (sums_local coord_sums) c.

(** local_chains_class.py:183-189, [copy_seq] *)
Definition copy_seq (cs : list chains) : res (list chains) :=
  mapM (fun c => mk_chains (map le_ref c) (map le_coord c)) cs.
