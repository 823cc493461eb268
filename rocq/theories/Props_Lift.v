(** * Property C54: lifting chains to the first page *)
From Verif Require Import Base Basis_model PH_model Simp_model Spec_Simp Spec_PH Spec_Rips LC_model Spec_LC SS_model Spec_SS Lin Props_SS SS_fplift.
From Coq Require Import Sorted Znumtheory.
Local Open Scope Z_scope.

(** Chains which are local cycles at given radii: each is the boundary of its lift plus the returned combination of local
    homology classes, everything being present at its radius.  No simplex of the nerve is left out, unlike in
    [C46_zigzag]. *)
Theorem C54_first_page_lift : forall argsort rnd Dist max_r max_dim p IN n0 nerve,
  mv_input argsort Dist max_r max_dim p IN n0 nerve ->
  forall S, zero_page argsort rnd Dist max_r max_dim p IN n0 nerve = Ok S ->
  forall n deg start R, (n < length nerve)%nat -> (deg < Z.to_nat max_dim)%nat ->
  good (sizes IN n0 nerve S n deg) start ->
  (forall s g, In g (le_ref (nth s start (LEntry [] LNil))) -> (g < length R)%nat) ->
  (forall g, (g < length R)%nat -> nth g R 0 < max_r) ->
  (forall k g, (k < length (level n0 nerve n))%nat -> (g < length R)%nat ->
     local_cycle p Dist IN S n deg k (nth g R 0) (value start k g)) ->
  (R <> [] -> level n0 nerve n <> []) ->
  exists B lifts, first_page_lift S n deg start R = Ok (B, lifts) /\
    nrows B = length R /\ ncols B = classes n0 nerve S n deg /\ (forall g h, 0 <= get B g h < p) /\
    good (sizes IN n0 nerve S n (Datatypes.S deg)) lifts /\
    forall k g, (k < length (level n0 nerve n))%nat -> (g < length R)%nat ->
      let H := hom_of S n k deg in
      local_chain p Dist IN S n (Datatypes.S deg) k (nth g R 0) (value lifts k g) /\
      (forall h, (h < length (b_bars H))%nat -> get B g (classes_before S n deg k + h) <> 0 -> bbirth (b_bars H) h <= nth g R 0 < bdeath (b_bars H) h) /\
      forall j, value start k g j mod p =
        (local_bd IN S n deg k (value lifts k g) j
         + Zsum (length (b_bars H)) (fun h => get B g (classes_before S n deg k + h) * get (b_coords H) j h)) mod p.
Proof. exact C54_aux. Qed.
Print Assumptions C54_first_page_lift.

(** The cycle around the square over the cover element containing the centre, which has no homology in degree 1, and the
    same cycle over the other element, where it is the class. *)
Definition ex_lift_start : chains := [LEntry [1]%nat (LMat 6 [[2;2;3;2;0;0]]); LEntry [0;1]%nat (LMat 10 [[0;0;0;0;2;2;3;2;0;0]; [0;0;0;0;1;1;4;1;0;0]])].

Example ex_lift_result : exists B lifts, first_page_lift ex_S 0 1 ex_lift_start [20; 25] = Ok (B, lifts) /\ B = Mat 2 [[0; 2]] /\
  forall g, (g < 2)%nat -> exists j, value lifts 1 g j mod 5 <> 0.
Proof.
  do 2 eexists. split; [vm_compute; reflexivity|]. split; [reflexivity|].
  intros [|[|g]] Hg; [exists 0%nat|exists 0%nat|lia]; vm_compute; discriminate.
Qed.

(** These chains satisfy the hypotheses of [C54_first_page_lift]. *)
Example ex_lift_start_good : good (sizes ex_IN 2 ex_nerve ex_S 0 1) ex_lift_start.
Proof.
  replace (sizes ex_IN 2 ex_nerve ex_S 0 1) with [6; 10]%nat by (vm_compute; reflexivity).
  repeat constructor; intros x Hx; cbn in Hx; intuition lia.
Qed.

Example ex_lift_start_cycle : forall k g, (k < length (level 2 ex_nerve 0))%nat -> (g < length [20; 25])%nat ->
  local_cycle 5 ex_Dist ex_IN ex_S 0 1 k (nth g [20; 25] 0) (value ex_lift_start k g).
Proof.
  intros k g Hk Hg. cbn in Hk, Hg.
  assert (Hb : forall i, (5 <= i)%nat -> local_bd ex_IN ex_S 0 0 k (value ex_lift_start k g) i = 0).
  { intros i Hi. unfold local_bd. apply Zsum_0. intros x Hx.
    replace (get _ i x) with 0; [lia|]. destruct k as [|[|k]]; [| |lia].
    - do 6 (destruct x as [|x]; [do 5 (destruct i as [|i]; [lia|]); vm_compute; destruct i; reflexivity|]). vm_compute in Hx. lia.
    - do 10 (destruct x as [|x]; [do 5 (destruct i as [|i]; [lia|]); vm_compute; destruct i; reflexivity|]). vm_compute in Hx. lia. }
  split.
  - intros j Hj. destruct (Nat.lt_ge_cases j (if Nat.eqb k 0 then 6 else 10)) as [Hl|Hl].
    2:{ exfalso. apply Hj. destruct k as [|[|k]]; [| |lia]; cbn in Hl; (destruct g as [|[|g]]; [| |lia]);
        repeat (destruct j as [|j]; [lia|]; try (vm_compute; destruct j; reflexivity)). }
    destruct k as [|[|k]]; [| |lia]; cbn in Hl;
      (destruct g as [|[|g]]; [| |lia]);
      repeat (destruct j as [|j]; [first [exfalso; apply Hj; vm_compute; reflexivity | split; [vm_compute; lia|]] | try lia]).
    all: match goal with |- rips _ _ _ ?x => let y := eval vm_compute in x in change x with y end.
    all: split; [|cbn; lia]; split; [reflexivity|]; split; [incr|]; split; [intros v Hv; cbn in Hv |- *; lia|].
    all: intros u v Hu Hv Huv; repeat (destruct Hu as [<-|Hu]; [repeat (destruct Hv as [<-|Hv]; [try lia; cbn; lia|]); destruct Hv|]); destruct Hu.
  - intros i. destruct (Nat.lt_ge_cases i 5) as [Hi|Hi]; [|rewrite Hb by lia; reflexivity].
    destruct k as [|[|k]]; [| |lia]; (destruct g as [|[|g]]; [| |lia]); do 5 (destruct i as [|i]; [vm_compute; reflexivity|]); lia.
Qed.
