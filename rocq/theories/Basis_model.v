(** * Model of [permaviss/persistence_algebra/barcode_bases.py] *)
From Verif Require Import Base SortX.
Local Open Scope Z_scope.

(** A bar: birth and death radius. *)
Notation bar := (Z * Z)%type.

(** barcode_bases.py:8, the attributes of a [barcode_basis] object.
    [b_flat] tells that [self.barcode] is the one-dimensional empty array that
    [barcode_basis([])] stores (any [barcode[:, k]] on it raises [IndexError]).
    [b_brk = None] stands for [broken_basis = False].
    [b_wd] is the attribute [well_defined], present only on request. *)
Inductive basis : Type := Basis {
  b_bars : list bar;
  b_flat : bool;
  b_dim : nat;
  b_prev : option basis;
  b_coords : mat;
  b_sorted : bool;
  b_brk : option mat;
  b_wd : option (list bool)
}.

(** barcode_bases.py:134: [well_defined = barcode[:, 0] < barcode[:, 1]]. *)
Definition well_defined (bars : list bar) : list bool := map (fun b => fst b <? snd b) bars.

(** Default value [np.array([[]])] of [coordinates]: one row, no columns. *)
Definition no_coords : mat := Mat 1 [].

(** barcode_bases.py:139-152: check and filter the coordinates. *)
Definition mk_coords (bars : list bar) (prev : option basis) (coords : mat) : res mat :=
  match prev with
  | None => Ok coords
  | Some pb =>
      if Nat.ltb 0 (ncols coords) then
        if negb (Nat.eqb (nrows coords) (b_dim pb)) then Err ValueError
        else if negb (Nat.eqb (length bars) (ncols coords)) then Err ValueError
        else Ok (Mat (nrows coords) (mask_filter (well_defined bars) (cols coords)))
      else Ok coords
  end.

(** barcode_bases.py:159-164: check the broken differentials. *)
Definition mk_brk (broken : bool) (bdiff : option mat) (dim : nat) : res (option mat) :=
  if broken then
    match bdiff with
    | Some M => if Nat.eqb (nrows M) dim && Nat.eqb (ncols M) dim then Ok (Some M) else Err ValueError
    | None => Err ValueError
    end
  else Ok None.

(** barcode_bases.py:112-164, the constructor.  [flat] = the argument [bars] is
    the Python list [[]] (only meaningful when [bars = []]). *)
Definition mk_basis (flat : bool) (bars : list bar) (prev : option basis) (coords : mat)
    (store broken : bool) (bdiff : option mat) : res basis :=
  if broken && (match bdiff with None => true | Some _ => false end) then Err ValueError
  else
    let wd := well_defined bars in
    let bars' := if Nat.eqb (length bars) 0 then bars else mask_filter wd bars in
    let dim := if Nat.eqb (length bars) 0 then 0%nat else length (filter (fun b => b) wd) in
    coords' <- mk_coords bars prev coords ;;
    if store && Nat.eqb (length bars) 0 then Err UnboundLocalError
    else
      brk <- mk_brk broken bdiff dim ;;
      Ok (Basis bars' (flat && Nat.eqb (length bars) 0) dim prev coords' false brk
                (if store then Some wd else None)).

(** [barcode_basis(bars)] with all defaults. *)
Definition plain_basis (bars : list bar) : res basis := mk_basis false bars None no_coords false false None.
(** [barcode_basis([])] *)
Definition empty_basis : basis := Basis [] true 0 None no_coords false None None.

(** The key of [np.lexsort((-death, birth))]: by birth, ties by decreasing death. *)
Definition key_leb (a b : bar) : bool :=
  (fst a <? fst b) || ((fst a =? fst b) && (snd b <=? snd a)).

(** barcode_bases.py:221-222.  [np.around] is the parameter [rnd]; [np.lexsort] is stable. *)
Definition sort_order (rnd : Z -> Z) (bars : list bar) : list nat :=
  let aux := map (fun b => (rnd (fst b), rnd (snd b))) bars in
  isort (fun i j => key_leb (nth i aux (0, 0)) (nth j aux (0, 0))) (seq 0 (length bars)).

(** Fancy column indexing with numpy's bounds check. *)
Definition take_cols_err (A : mat) (js : list nat) : res mat :=
  if forallb (fun j => Nat.ltb j (ncols A)) js then Ok (take_cols A js) else Err IndexError.

(** barcode_bases.py:176-233, [sort]; returns the sorted basis and the order. *)
Definition b_sort (rnd : Z -> Z) (b : basis) : res (basis * list nat) :=
  if b_flat b then Err IndexError
  else
    let order := sort_order rnd (b_bars b) in
    coords <- match b_prev b with
              | Some _ => take_cols_err (b_coords b) order
              | None => Ok (b_coords b)
              end ;;
    let brk := match b_brk b with
               | Some M => Some (take_cols (take_rows M order) order)
               | None => None
               end in
    Ok (Basis (take (0, 0) (b_bars b) order) false (b_dim b) (b_prev b) coords true brk (b_wd b), order).

(** barcode_bases.py:238-259, [changes_list]. *)
Definition changes_list (b : basis) : list Z :=
  zunique (flat_map (fun x => [fst x; snd x]) (b_bars b)).

(** Common part of [active], [birth], [death] (lines 288-291, 313-315, 337-339):
    boolean mask over the bars applied to [range(self.dim)]; a length mismatch is
    an [IndexError], and so is a one-dimensional barcode. *)
Definition select (b : basis) (f : bar -> bool) : res (list nat) :=
  if b_flat b then Err IndexError
  else if negb (Nat.eqb (b_dim b) (length (b_bars b))) then Err IndexError
  else Ok (mask_filter (map f (b_bars b)) (seq 0 (b_dim b))).

(** barcode_bases.py:261-291 *)
Definition active (b : basis) (rad : Z) : res (list nat) :=
  select b (fun x => (fst x <=? rad) && (rad <? snd x)).
(** barcode_bases.py:293-315 *)
Definition birth (b : basis) (rad : Z) : res (list nat) := select b (fun x => fst x =? rad).
(** barcode_bases.py:317-339 *)
Definition death (b : basis) (rad : Z) : res (list nat) := select b (fun x => snd x =? rad).

(** barcode_bases.py:341-385, [update_broken].  The rows of [A] are indexed by the
    basis: other shapes raise [ValueError]/[IndexError] in numpy, here [ValueError]. *)
Definition update_broken (b : basis) (A : mat) (rad p : Z) : res mat :=
  dying <- death b rad ;;
  if Nat.ltb 0 (length dying) then
    match b_brk b with
    | None => Err TypeError
    | Some M =>
        if negb (Nat.eqb (nrows A) (nrows M)) then Err ValueError
        else Ok (Mat (nrows A) (map (fun c =>
               map (fun i =>
                 ((if memn i dying then 0 else vget c i)
                  + Zsum (length dying) (fun k => get M i (nth k dying 0%nat) * vget c (nth k dying 0%nat)))
                 mod p) (seq 0 (nrows A))) (cols A)))
    end
  else Ok A.
