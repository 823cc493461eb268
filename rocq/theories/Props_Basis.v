(** * Properties C28-C31: barcode bases *)
From Verif Require Import Base SortX Basis_model Basis_props Spec_Basis.
From Coq Require Import Sorting.Permutation Sorting.Sorted.
Local Open Scope Z_scope.

(** ** C28 *)
Theorem C28_constructor_bars : forall flat bars prev coords store broken bdiff b,
  mk_basis flat bars prev coords store broken bdiff = Ok b ->
  b_bars b = filter nonempty_bar bars /\ b_dim b = length (filter nonempty_bar bars).
Proof. exact mk_basis_bars. Qed.
Print Assumptions C28_constructor_bars.

Theorem C28_constructor_coordinates : forall flat bars pb coords store broken bdiff b,
  mk_basis flat bars (Some pb) coords store broken bdiff = Ok b -> (0 < ncols coords)%nat ->
  b_bars b = filter nonempty_bar bars /\ b_dim b = length (b_bars b) /\
  nrows (b_coords b) = b_dim pb /\
  combine (b_bars b) (cols (b_coords b)) =
    filter (fun x => nonempty_bar (fst x)) (combine bars (cols coords)) /\
  length (cols (b_coords b)) = length (b_bars b).
Proof. exact mk_basis_C28. Qed.
Print Assumptions C28_constructor_coordinates.

Theorem C28_constructor_errors : forall flat bars prev coords store broken bdiff,
  let bad_coords := match prev with
    | Some pb => (0 < ncols coords)%nat /\ (nrows coords <> b_dim pb \/ length bars <> ncols coords)
    | None => False end in
  let bad_broken := broken = true /\ match bdiff with
    | None => True
    | Some M => nrows M <> length (filter nonempty_bar bars) \/ ncols M <> length (filter nonempty_bar bars) end in
  ((exists b, mk_basis flat bars prev coords store broken bdiff = Ok b) <->
     ~ bad_coords /\ ~ bad_broken /\ ~ (store = true /\ bars = [])) /\
  (forall e, mk_basis flat bars prev coords store broken bdiff = Err e ->
     e = ValueError \/ e = UnboundLocalError) /\
  (bad_coords -> mk_basis flat bars prev coords store broken bdiff = Err ValueError) /\
  (bad_broken -> ~ (store = true /\ bars = []) -> mk_basis flat bars prev coords store broken bdiff = Err ValueError).
Proof. exact mk_basis_errors. Qed.
Print Assumptions C28_constructor_errors.

(** Docstring example of the class (lines 66-77) and coordinates filtering. *)
Example C28_case :
  let prev := match plain_basis [(0, 5); (0, 5)] with Ok b => b | Err _ => empty_basis end in
  exists b, mk_basis false [(0, 2); (0, 1); (2, 3); (2, 2)] (Some prev)
              (Mat 2 [[1; 0]; [0; 1]; [1; 1]; [3; 4]]) true false None = Ok b /\
  b_dim b = 3%nat /\ b_wd b = Some [true; true; true; false] /\
  b_bars b = [(0, 2); (0, 1); (2, 3)] /\ cols (b_coords b) = [[1; 0]; [0; 1]; [1; 1]].
Proof. eexists. repeat split; vm_compute; reflexivity. Qed.

(** Storing [well_defined] of an empty barcode fails (the local variable is never bound). *)
Theorem C28_store_empty_refuted : exists flat prev coords,
  mk_basis flat [] prev coords true false None = Err UnboundLocalError.
Proof. exists true, None, no_coords. vm_compute. reflexivity. Qed.
Print Assumptions C28_store_empty_refuted.

(** ** C29 *)
Theorem C29_sort : forall rnd b, b_flat b = false ->
  (b_prev b <> None -> ncols (b_coords b) = length (b_bars b)) ->
  exists b' order, b_sort rnd b = Ok (b', order) /\
    Permutation (seq 0 (length (b_bars b))) order /\
    StronglySorted (standard_before rnd (b_bars b)) order /\
    b_bars b' = map (fun k => nth k (b_bars b) (0, 0)) order /\
    (b_prev b <> None -> cols (b_coords b') = map (col (b_coords b)) order) /\
    (forall M, b_brk b = Some M -> exists M', b_brk b' = Some M' /\
       nrows M' = length order /\ ncols M' = length order /\
       forall i j, (i < length order)%nat -> (j < length order)%nat -> (nth j order 0 < ncols M)%nat ->
         get M' i j = get M (nth i order 0%nat) (nth j order 0%nat)) /\
    b_dim b' = b_dim b /\ b_prev b' = b_prev b /\ b_sorted b' = true /\ b_flat b' = false /\ b_wd b' = b_wd b.
Proof. exact b_sort_C29. Qed.
Print Assumptions C29_sort.

(** The permutation is the only one in standard order. *)
Theorem C29_sort_unique : forall rnd bars l, StronglySorted (standard_before rnd bars) l ->
  (forall i, In i l <-> (i < length bars)%nat) -> l = sort_order rnd bars.
Proof. exact sort_order_unique. Qed.
Print Assumptions C29_sort_unique.

Theorem C29_sort_idempotent : forall rnd b b' o,
  wf_mat (match b_brk b with Some M => M | None => Mat 0 [] end) ->
  (forall M, b_brk b = Some M -> nrows M = length (b_bars b) /\ ncols M = length (b_bars b)) ->
  b_sort rnd b = Ok (b', o) ->
  b_sort rnd b' = Ok (b', seq 0 (length (b_bars b'))).
Proof. exact b_sort_idem. Qed.
Print Assumptions C29_sort_idempotent.

(** Docstring example (lines 199-217). *)
Example C29_case : sort_order (fun x => x) [(1, 2); (0, 4); (-1, 3); (1, 4)] = [2; 1; 3; 0]%nat.
Proof. vm_compute. reflexivity. Qed.

(** With rounding, unrounded births need not be sorted. *)
Theorem C29_exact_order_refuted : exists (rnd : Z -> Z) bars,
  (forall x y, x <= y -> rnd x <= rnd y) /\
  let bars' := map (fun k => nth k bars (0, 0)) (sort_order rnd bars) in
  exists i j, (i < j < length bars')%nat /\ fst (nth j bars' (0, 0)) < fst (nth i bars' (0, 0)).
Proof.
  exists (fun x => x / 10), [(5, 90); (3, 70)]. split; [intros; apply Z.div_le_mono; lia|].
  exists 0%nat, 1%nat. vm_compute. split; [lia|reflexivity].
Qed.
Print Assumptions C29_exact_order_refuted.

(** ** C30 *)
Theorem C30_active_birth_death_changes : forall b, b_flat b = false -> b_dim b = length (b_bars b) ->
  (forall r, exists l, active b r = Ok l /\ StronglySorted lt l /\
     forall k, In k l <-> (k < length (b_bars b))%nat /\ fst (nth k (b_bars b) (0, 0)) <= r < snd (nth k (b_bars b) (0, 0))) /\
  (forall r, exists l, birth b r = Ok l /\ StronglySorted lt l /\
     forall k, In k l <-> (k < length (b_bars b))%nat /\ fst (nth k (b_bars b) (0, 0)) = r) /\
  (forall r, exists l, death b r = Ok l /\ StronglySorted lt l /\
     forall k, In k l <-> (k < length (b_bars b))%nat /\ snd (nth k (b_bars b) (0, 0)) = r) /\
  (StronglySorted Z.lt (changes_list b) /\
     forall x, In x (changes_list b) <-> exists k, (k < length (b_bars b))%nat /\
       (x = fst (nth k (b_bars b) (0, 0)) \/ x = snd (nth k (b_bars b) (0, 0)))) /\
  (forall r1 r2, r1 <= r2 -> (forall x, In x (changes_list b) -> ~ (r1 < x <= r2)) -> active b r1 = active b r2).
Proof. exact C30_aux. Qed.
Print Assumptions C30_active_birth_death_changes.

Example C30_case : exists b, plain_basis [(0, 2); (0, 1); (2, 3)] = Ok b /\
  b_flat b = false /\ b_dim b = length (b_bars b) /\
  active b 1 = Ok [0%nat] /\ birth b 0 = Ok [0%nat; 1%nat] /\ death b 3 = Ok [2%nat] /\ changes_list b = [0; 1; 2; 3].
Proof. eexists. repeat split; vm_compute; reflexivity. Qed.

(** ** C31 *)
Theorem C31_update_broken : forall b M A r p,
  b_flat b = false -> b_dim b = length (b_bars b) -> b_brk b = Some M ->
  nrows M = b_dim b -> nrows A = b_dim b ->
  let dies k := (k < b_dim b)%nat /\ snd (nth k (b_bars b) (0, 0)) = r in
  ((forall k, ~ dies k) -> update_broken b A r p = Ok A) /\
  ((exists k, dies k) -> exists A', update_broken b A r p = Ok A' /\ nrows A' = nrows A /\ ncols A' = ncols A /\
     forall i j, (i < nrows A)%nat -> (j < ncols A)%nat ->
       get A' i j =
         ((if snd (nth i (b_bars b) (0, 0)) =? r then 0 else get A i j)
          + Zsum (b_dim b) (fun k => if snd (nth k (b_bars b) (0, 0)) =? r then get M i k * get A k j else 0)) mod p).
Proof. exact C31_aux. Qed.
Print Assumptions C31_update_broken.

(** Docstring example (lines 362-374), which prints the result modulo 5. *)
Example C31_case : exists b,
  mk_basis false [(0, 2); (0, 1); (1, 3)] None no_coords false true
    (Some (Mat 3 [[0; 0; 0]; [0; 0; 1]; [0; 0; 0]])) = Ok b /\
  update_broken b (Mat 3 [[1; 0; 0]; [1; 2; 1]; [1; -1; 1]]) 1 5 = Ok (Mat 3 [[1; 0; 0]; [1; 0; 3]; [1; 0; 0]]).
Proof. eexists. split; vm_compute; reflexivity. Qed.
