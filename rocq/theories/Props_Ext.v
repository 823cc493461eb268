(** * Properties of the assembly of a diagonal *)
From Coq Require Import QArith.
From Verif Require Import Base Basis_model IK_model SS_model HP_model Spec_PH Spec_IK Spec_Bars Spec_Ext Ext_props Spec_Elder Ext_elder.
From Coq Require Import Znumtheory Permutation.
Local Open Scope Z_scope.

(** C58: the bars computed from a diagonal and its extension matrix are the barcode of the module where a generator which
    dies goes on as the combination in its column of the matrix. *)
Theorem C58_assemble : forall rnd p M bars E, prime p -> bars <> [] -> (forall x, In x bars -> fst x < snd x <= M) ->
  nrows E = length bars -> ncols E = length bars -> wf_mat E -> pres_valid p bars E -> two_step p bars E -> rnd_faithful rnd bars ->
  exists PH, assemble rnd p M bars E = Ok PH /\ barcode p (pres_cycle p bars) (pres_bounds p bars E) M (b_bars PH).
Proof. exact assemble_barcode. Qed.
Print Assumptions C58_assemble.

(** No other list of bars will do. *)
Theorem C58_unique : forall rnd p M bars E l, prime p -> bars <> [] -> (forall x, In x bars -> fst x < snd x <= M) ->
  nrows E = length bars -> ncols E = length bars -> wf_mat E -> pres_valid p bars E -> two_step p bars E -> rnd_faithful rnd bars ->
  barcode p (pres_cycle p bars) (pres_bounds p bars E) M l ->
  exists PH, assemble rnd p M bars E = Ok PH /\ Permutation (b_bars PH) l.
Proof. exact assemble_unique. Qed.
Print Assumptions C58_unique.

(** Without [two_step] the bars can be wrong: of three generators the third becomes the second at 4 while the second becomes
    the first, so that a class born at 0 lives until 5; the bars returned say that it dies at 4. *)
Theorem C58_chain_refuted : exists bars E PH, (forall x, In x bars -> fst x < snd x <= 10) /\
  nrows E = length bars /\ ncols E = length bars /\ wf_mat E /\ pres_valid 2 bars E /\ rnd_faithful (fun x => x) bars /\
  assemble (fun x => x) 2 10 bars E = Ok PH /\ ~ barcode 2 (pres_cycle 2 bars) (pres_bounds 2 bars E) 10 (b_bars PH).
Proof. exact chain_aux. Qed.
Print Assumptions C58_chain_refuted.

(** Nor is it enough that a generator only goes on as generators which live longer: the reduction need not end, in Python
    until the recursion limit.  A column gets a later pivot, which is not noticed because its old pivot is still there. *)
Theorem C58_loop_refuted : exists bars E, (forall x, In x bars -> fst x < snd x <= 8) /\
  nrows E = length bars /\ ncols E = length bars /\ wf_mat E /\
  (forall i k, (i < length bars)%nat -> (k < length bars)%nat -> get E i k mod 2 <> 0 -> bbirth bars i <= bdeath bars k < bdeath bars i) /\
  rnd_faithful (fun x => x) bars /\ assemble (fun x => x) 2 8 bars E = Err OutOfFuel.
Proof. exact loop_aux. Qed.
Print Assumptions C58_loop_refuted.

(** The call which does not end, for any fuel: third column at the radius 4. *)
Theorem C58_forever_refuted : exists prev r t, forall fuel, pivot_check_reduce fuel [3; 4]%nat prev r t 2 = Err OutOfFuel.
Proof. exact forever_aux. Qed.
Print Assumptions C58_forever_refuted.

(** Two generators die at 3: one goes on as twice the third, the other as the sum of the third and the last; afterwards
    the last one ends at 5 and the third at 6. *)
Example C58_bars : let bars := [(0, 3); (1, 3); (2, 6); (2, 5); (4, 9)] in let E := Mat 5 [[0;0;2;0;0];[0;0;1;1;0];[0;0;0;0;0];[0;0;0;0;0];[0;0;0;0;0]] in
  prime 3 /\ (forall x, In x bars -> fst x < snd x <= 9) /\ nrows E = length bars /\ ncols E = length bars /\ wf_mat E /\
  pres_valid 3 bars E /\ two_step 3 bars E /\ rnd_faithful (fun x => x) bars /\
  exists PH, assemble (fun x => x) 3 9 bars E = Ok PH /\ b_bars PH = [(0, 6); (1, 5); (2, 3); (2, 3); (4, 9)].
Proof. exact bars_aux. Qed.

(** If every generator goes on as generators which are not younger and die later, then the extension changes no bar: the reduction
    ends, whatever chains the matrix contains, and gives the bars of the diagonal. *)
Theorem C58_elder : forall rnd p M bars E, prime p -> bars <> [] -> (forall x, In x bars -> fst x < snd x <= M) ->
  nrows E = length bars -> ncols E = length bars -> wf_mat E -> elder p bars E -> rnd_faithful rnd bars ->
  (forall x y, In x bars -> In y bars -> rnd (snd x) <= rnd (snd y) -> snd x <= snd y) ->
  exists PH, assemble rnd p M bars E = Ok PH /\ Permutation (b_bars PH) bars.
Proof. exact assemble_elder. Qed.
Print Assumptions C58_elder.

(** A chain of three generators, each going on as the sum of those before it; [two_step] fails for it. *)
Example C58_elder_chain : let bars := [(2, 3); (1, 5); (0, 9)] in let E := Mat 3 [[0;1;1];[0;0;1];[0;0;0]] in
  prime 2 /\ bars <> [] /\ (forall x, In x bars -> fst x < snd x <= 9) /\ nrows E = length bars /\ ncols E = length bars /\ wf_mat E /\ elder 2 bars E /\
  rnd_faithful (fun x => x) bars /\ ~ two_step 2 bars E /\ exists PH, assemble (fun x => x) 2 9 bars E = Ok PH /\ b_bars PH = [(0, 9); (1, 5); (2, 3)].
Proof. exact elder_chain. Qed.
