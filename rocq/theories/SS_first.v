(** * [cech_diff_and_lift] and the first differential *)
From Verif Require Import Base ListX SortX Lin Gauss_arith Basis_model PH_model PH_lin PH_props Simp_model Spec_Simp Simp_lists Simp_diff Simp_props
  Spec_PH Spec_Rips Rips_bd Rips_chain Rips_props LC_model Spec_LC LC_props SS_model Spec_SS SS_inv SS_page SS_cech SS_lift SS_zig.
From Coq Require Import Sorted Permutation Znumtheory.
Local Open Scope Z_scope.

Local Notation e0 := (LEntry [] LNil).

(** Loops over the windows [prev:next] that collect blocks and fill a local chain. *)
Lemma fold_blocks {X St} (mk : list X -> chains -> nat -> St) (step : St -> nat * nat -> res St) (blk : nat -> list X) (ent : nat -> lentry) dims N :
  length dims = N ->
  (forall k bl lifts prev, (k < N)%nat -> prev = list_sum (firstn k dims) -> length lifts = N -> nth k lifts e0 = e0 ->
     exists lifts', step (mk bl lifts prev) (k, prev + nth k dims 0)%nat = Ok (mk (bl ++ blk k) lifts' (prev + nth k dims 0)%nat) /\
       length lifts' = N /\ (forall i, i <> k -> nth i lifts' e0 = nth i lifts e0) /\ nth k lifts' e0 = ent k) ->
  exists lifts, foldM step (combine (seq 0 N) (cumulate 0 dims)) (mk [] (empty_chains N) 0%nat) = Ok (mk (concat (map blk (seq 0 N))) lifts (list_sum dims)) /\
    length lifts = N /\ forall k, (k < N)%nat -> nth k lifts e0 = ent k.
Proof.
  intros HN Hstep.
  assert (Hgen : forall l a bl lifts prev, (forall i, (i < length l)%nat -> nth i l 0%nat = nth (a + i) dims 0%nat) -> (a + length l = N)%nat ->
     prev = list_sum (firstn a dims) -> length lifts = N -> (forall i, (a <= i)%nat -> nth i lifts e0 = e0) ->
     exists lifts', foldM step (combine (seq a (length l)) (cumulate prev l)) (mk bl lifts prev) =
         Ok (mk (bl ++ concat (map blk (seq a (length l)))) lifts' (prev + list_sum l)%nat) /\
       length lifts' = N /\ (forall i, (i < a)%nat -> nth i lifts' e0 = nth i lifts e0) /\ forall k, (a <= k < N)%nat -> nth k lifts' e0 = ent k).
  { induction l as [|x l IH]; intros a bl lifts prev Hl Ha Hpr HL Hf.
    - cbn [length seq combine cumulate foldM map concat]. rewrite app_nil_r. cbn [list_sum fold_right]. rewrite Nat.add_0_r. exists lifts.
      split; [reflexivity|]. split; [auto|]. split; [auto|]. intros k Hk. cbn [length] in Ha. lia.
    - cbn [length] in Ha. cbn [length seq cumulate combine foldM].
      assert (Ex : x = nth a dims 0%nat) by (specialize (Hl 0%nat ltac:(simpl; lia)); rewrite Nat.add_0_r in Hl; exact Hl).
      destruct (Hstep a bl lifts prev ltac:(lia) Hpr HL (Hf a ltac:(lia))) as (l1 & E1 & L1 & O1 & N1).
      rewrite <- Ex in E1. rewrite E1. cbn [bind].
      destruct (IH (S a) (bl ++ blk a) l1 (prev + x)%nat) as (l2 & E2 & L2 & O2 & N2).
      + intros i Hi. specialize (Hl (S i) ltac:(simpl; lia)). cbn [nth] in Hl. rewrite Hl. f_equal. lia.
      + lia.
      + rewrite list_sum_firstn_S by lia. rewrite Hpr, Ex. reflexivity.
      + auto.
      + intros i Hi. rewrite O1 by lia. apply Hf. lia.
      + exists l2. rewrite E2. split; [|split; [auto|split]].
        * cbn [map concat]. rewrite <- app_assoc. change (list_sum (x :: l)) with (x + list_sum l)%nat. rewrite Nat.add_assoc. reflexivity.
        * intros i Hi. rewrite O2 by lia. apply O1. lia.
        * intros k Hk. destruct (Nat.eq_dec k a) as [->|Hne]; [rewrite O2 by lia; auto|]. apply N2. lia. }
  destruct (Hgen dims 0%nat [] (empty_chains N) 0%nat) as (lifts & E & L & _ & H).
  - auto.
  - auto.
  - reflexivity.
  - unfold empty_chains. apply repeat_length.
  - intros i _. unfold empty_chains. destruct (Nat.lt_ge_cases i N); [apply nth_repeat_lt; auto|apply nth_overflow; rewrite repeat_length; auto].
  - rewrite HN in E. exists lifts. split; [exact E|]. split; [auto|]. intros k Hk. apply H. lia.
Qed.

Lemma nth_concat_blocks {A} (blk : nat -> list A) dims N k h d : length dims = N -> (forall i, (i < N)%nat -> length (blk i) = nth i dims 0%nat) ->
  (k < N)%nat -> (h < nth k dims 0)%nat -> nth (list_sum (firstn k dims) + h) (concat (map blk (seq 0 N))) d = nth h (blk k) d.
Proof.
  intros HN Hb Hk Hh. rewrite <- (Hb k Hk) in Hh.
  assert (E : map (@length A) (firstn k (map blk (seq 0 N))) = firstn k dims).
  { rewrite <- firstn_map. rewrite map_map. f_equal. apply (nth_ext _ _ 0%nat 0%nat); rewrite map_length, seq_length; [auto|].
    intros i Hi. rewrite nth_map_seq by auto. apply Hb. auto. }
  rewrite <- E. rewrite concat_nth.
  - rewrite nth_map_seq by auto. reflexivity.
  - rewrite map_length, seq_length. auto.
  - rewrite nth_map_seq by auto. auto.
Qed.

Lemma length_concat_blocks {A} (blk : nat -> list A) dims N : length dims = N -> (forall i, (i < N)%nat -> length (blk i) = nth i dims 0%nat) ->
  length (concat (map blk (seq 0 N))) = list_sum dims.
Proof.
  intros HN Hb. rewrite list_sum_length, map_map. f_equal. apply (nth_ext _ _ 0%nat 0%nat); rewrite map_length, seq_length; [auto|].
  intros i Hi. rewrite nth_map_seq by auto. apply Hb. auto.
Qed.

Lemma removelast_cyc l : combine (seq 0 (length (cumulate 0 l ++ [0%nat]) - 1)) (removelast (cumulate 0 l ++ [0%nat])) = combine (seq 0 (length l)) (cumulate 0 l).
Proof.
  rewrite removelast_last. rewrite app_length, cumulate_length. simpl. replace (length l + 1 - 1)%nat with (length l) by lia. reflexivity.
Qed.

Lemma get_nil_rows q m0 k g h : 0 < q -> 0 <= get (Mat m0 (repeat [] k)) g h < q.
Proof.
  intros Hq. unfold get, col. cbn [cols]. destruct (nth_in_or_default h (repeat (@nil Z) k) []) as [X|X]; [apply repeat_spec in X|]; unfold vec in *; rewrite X; unfold vget; destruct g; cbn [nth]; lia.
Qed.

Lemma firstn_seq0 k N : (k <= N)%nat -> firstn k (seq 0 N) = seq 0 k.
Proof.
  intros H. replace N with (k + (N - k))%nat by lia. rewrite seq_app, firstn_app, seq_length. replace (k - k)%nat with 0%nat by lia.
  rewrite firstn_O, app_nil_r. apply firstn_all2. rewrite seq_length. lia.
Qed.

Section First.
Variables (argsort : list Z -> list nat) (rnd : Z -> Z) (Dist : list (list Z)) (max_r max_dim p : Z)
  (IN : list (list (list nat))) (n0 : nat) (nerve : list (list simplex)).
Hypothesis HI : mv_input argsort Dist max_r max_dim p IN n0 nerve.
Variable S : ss.
Hypothesis PO : page_ok argsort rnd Dist max_r max_dim p IN n0 nerve S.
Let m := Z.to_nat max_dim.
Let HC := mv_cover _ _ _ _ _ _ _ _ HI.
Let ok := local_ok rnd Dist max_r max_dim p.
Let lev n := level n0 nerve n.
Let ins := ins_of IN.
Let loc := loc_of S.
Local Notation G := (simplices IN S).
Local Notation widths := (sizes IN n0 nerve S).
Local Notation vbd := (local_bd IN S).
Local Notation dims := (dims n0 nerve S).
Let Hp := mv_prime _ _ _ _ _ _ _ _ HI.

Definition before (n deg k : nat) : nat := list_sum (firstn k (dims n deg)).

(** [cech_diff_and_lift] *)
Theorem cech_diff_and_lift_ok n deg start R : (Datatypes.S n < length nerve)%nat -> (deg < m)%nat -> has_cofaces n0 nerve n ->
  good (widths (Datatypes.S n) deg) start ->
  (forall s g, In g (le_ref (nth s start e0)) -> (g < length R)%nat) ->
  (forall g, (g < length R)%nat -> nth g R 0 < max_r) ->
  (forall s g, (s < length (lev (Datatypes.S n)))%nat -> (g < length R)%nat -> local_cycle p Dist IN S (Datatypes.S n) deg s (nth g R 0) (value start s g)) ->
  (R <> [] -> lev n <> []) ->
  exists c B lifts, cech_diff S n deg start = Ok c /\ cech_diff_and_lift S n deg start R = Ok (B, lifts) /\
    nrows B = length R /\ ncols B = list_sum (dims n deg) /\ wf_mat B /\ (forall g h, 0 <= get B g h < p) /\
    good (widths n (Datatypes.S deg)) lifts /\
    (forall k g, In g (le_ref (nth k lifts e0)) -> (g < length R)%nat) /\
    forall k g, (k < length (lev n))%nat -> (g < length R)%nat ->
      let H := hom_of S n k deg in
      local_cycle p Dist IN S n deg k (nth g R 0) (value c k g) /\
      local_chain p Dist IN S n (Datatypes.S deg) k (nth g R 0) (value lifts k g) /\
      (forall h, (h < length (b_bars H))%nat -> get B g (before n deg k + h) <> 0 -> bbirth (b_bars H) h <= nth g R 0 < bdeath (b_bars H) h) /\
      (b_bars H <> [] -> forall j, cong p (value c k g j + vbd n deg k (value lifts k g) j)
                        (Zsum (length (b_bars H)) (fun h => get B g (before n deg k + h) * get (b_coords H) j h))) /\
      (b_bars H = [] -> nth k lifts e0 = e0).
Proof.
  intros Hn Hd Hc Hg HR Hlt Hcyc Hlev.
  destruct (cech_diff_ok _ _ _ _ _ _ _ _ _ HI S PO n deg start Hn ltac:(unfold m in Hd; lia) Hc Hg) as (c & Ec & Hgc & _).
  exists c. unfold cech_diff_and_lift.
  assert (Hp2 : 2 <= p) by (apply prime_ge_2; auto).
  destruct (Nat.eq_dec (length (lev n)) 0) as [Hl0|Hl0].
  { (* no simplices, hence no rows *)
    assert (R = []) as ->.
    { destruct R as [|r R']; auto. exfalso. apply (Hlev ltac:(discriminate)). apply length_zero_iff_nil. auto. }
    assert (Epage : page_dim1 S n deg = Ok (list_sum (dims n deg))).
    { unfold page_dim1. rewrite (nth_err_nth (s_cols S) n no_column) by (rewrite (po_cols _ _ _ _ _ _ _ _ _ _ PO); lia). cbn [bind].
      pose proof (po_col _ _ _ _ _ _ _ _ _ _ PO n ltac:(lia)) as E. pose proof (po_count _ _ _ _ _ _ _ _ _ _ PO n ltac:(lia)) as L.
      cbv beta in L, E. fold (lev n) in L, E. rewrite Hl0 in L. apply length_zero_iff_nil in L. rewrite L, add_output_first_nil in E. injection E as E.
      rewrite <- E. cbn [c_dim]. rewrite (nth_err_nth _ deg 0%nat) by (rewrite repeat_length; auto). rewrite nth_repeat.
      unfold SS_zig.dims. fold (lev n). rewrite Hl0. reflexivity. }
    rewrite Epage. cbn [bind]. rewrite (spx_ok _ _ _ _ _ _ _ _ _ _ PO n) by lia. cbn [bind length Nat.eqb].
    do 2 eexists. split; [auto|]. split; [reflexivity|]. cbn [nrows]. split; [reflexivity|]. split; [unfold ncols; cbn [cols]; rewrite repeat_length; reflexivity|].
    split; [unfold wf_mat; cbn [cols nrows]; apply Forall_forall; intros v Hv; apply repeat_spec in Hv; subst v; reflexivity|].
    split; [intros g h; apply get_nil_rows; lia|].
    fold (lev n). split; [replace (length (lev n)) with (length (widths n (Datatypes.S deg))) by (unfold sizes; rewrite map_length, seq_length; reflexivity); apply good_empty|].
    split; [intros k g Hin; unfold empty_chains in Hin; rewrite Hl0 in Hin; cbn in Hin; destruct k; destruct Hin|].
    intros k g Hk. lia. }
  assert (Hlev' : lev n <> []) by (intros X; apply Hl0; rewrite X; reflexivity).
  destruct (cyc_ok _ _ _ _ _ _ _ _ _ HI S PO n deg ltac:(lia) Hlev' Hd) as [Ecyc Epage].
  rewrite Epage. cbn [bind]. rewrite (spx_ok _ _ _ _ _ _ _ _ _ _ PO n) by lia. cbn [bind]. fold (lev n).
  destruct (Nat.eqb_spec (length R) 0) as [HR0|HR0].
  { assert (R = []) as -> by (apply length_zero_iff_nil; auto).
    do 2 eexists. split; [auto|]. split; [reflexivity|]. cbn [nrows]. split; [reflexivity|]. split; [unfold ncols; cbn [cols]; rewrite repeat_length; reflexivity|].
    split; [unfold wf_mat; cbn [cols nrows]; apply Forall_forall; intros v Hv; apply repeat_spec in Hv; subst v; reflexivity|].
    split; [intros g h; apply get_nil_rows; lia|].
    split; [replace (length (lev n)) with (length (widths n (Datatypes.S deg))) by (unfold sizes; rewrite map_length, seq_length; reflexivity); apply good_empty|].
    split; [intros k g Hin; unfold empty_chains in Hin; destruct (nth_in_or_default k (repeat e0 (length (lev n))) e0) as [X|X];
            [apply repeat_spec in X; rewrite X in Hin; destruct Hin|rewrite X in Hin; destruct Hin]|].
    intros k g Hk Hg0. cbn [length] in Hg0. lia. }
  assert (Hck : forall k g, (k < length (lev n))%nat -> (g < length R)%nat -> local_cycle p Dist IN S n deg k (nth g R 0) (value c k g)).
  { intros k g Hk Hgr. apply (cech_cycle _ _ _ _ _ _ _ _ _ HI S PO n deg start c k g _ Hn ltac:(unfold m in Hd; lia) Hc Hg Ec Hk). intros s Hs. apply Hcyc; auto. }
  (* the local results *)
  assert (Hloc : forall k, (k < length (lev n))%nat -> exists o, cech_diff_and_lift_local S R start n deg k = Ok o /\
     (b_bars (hom_of S n k deg) = [] -> o = None) /\
     (b_bars (hom_of S n k deg) <> [] -> exists gens coord, (forall g j, at_entry (LEntry gens coord) g j = value c k g j) /\ (forall g, In g gens -> (g < length R)%nat) /\
        zigzag Dist max_r p IN S n deg k R (LEntry gens coord) o)).
  { intros k Hk. destruct (list_eq_dec (fun x y : bar => ltac:(decide equality; apply Z.eq_dec)) (b_bars (hom_of S n k deg)) []) as [Eb|Eb].
    - exists None. split; [|tauto]. unfold cech_diff_and_lift_local. rewrite Ecyc. cbn [bind].
      destruct (windows_ok rnd Dist max_r max_dim p IN n0 nerve S n deg k Hk) as [Ep En]. cbv zeta in Ep, En. rewrite Ep. cbn [bind]. rewrite En. cbn [bind].
      destruct (hom0_of _ _ _ _ _ _ _ _ _ HI S PO n k deg ltac:(lia) Hk ltac:(unfold m in Hd; lia)) as [_ Edim]. rewrite Edim, Eb. cbn [length].
      rewrite Nat.add_0_r, Nat.eqb_refl. reflexivity.
    - destruct (zig_total _ _ _ _ _ _ _ _ _ HI S PO n deg k start R Hn Hk Hd Hc Hg Eb HR) as [o Eo].
      { intros c' Ec' g Hgr. rewrite Ec in Ec'. injection Ec' as <-. auto. }
      exists o. split; [auto|]. split; [congruence|]. intros _.
      destruct (zig_image _ _ _ _ _ _ _ _ _ HI S PO n deg k start R Hn Hk Hd Hc Hg HR) as (gens & coord & E1 & _ & _ & HRg & HV).
      destruct (zig_sound _ _ _ _ _ _ _ _ _ HI S PO n deg k start R Hn Hk Hd Hc Hg Eb o Eo) as (gens' & coord' & E1' & HZ).
      rewrite E1 in E1'. injection E1' as <- <-. exists gens, coord. split; [apply HV; auto|]. auto. }
  destruct (mapM_index (cech_diff_and_lift_local S R start n deg) (fun k o => cech_diff_and_lift_local S R start n deg k = Ok o) 0%nat None (seq 0 (length (lev n)))) as (output & Eout & Lout & Nout).
  { intros i Hi. rewrite seq_length in Hi. rewrite seq_nth by auto. destruct (Hloc i Hi) as (o & Eo & _). exists o. auto. }
  rewrite seq_length in Lout, Nout. rewrite Eout. cbn [bind]. rewrite Ecyc. cbn [bind]. rewrite removelast_cyc. rewrite dims_length. fold (lev n).
  set (blk := fun k => match nth k output None with Some (b, _, _) => cols b | None => repeat (vzero (length R)) (nth k (dims n deg) 0%nat) end).
  set (ent := fun k => match nth k output None with Some (_, ref, LMat w rows) => LEntry ref (LMat w rows) | _ => e0 end).
  assert (Hk_all : forall k, (k < length (lev n))%nat ->
     (b_bars (hom_of S n k deg) = [] -> nth k output None = None) /\
     (b_bars (hom_of S n k deg) <> [] -> exists gens coord, (forall g j, at_entry (LEntry gens coord) g j = value c k g j) /\ (forall g, In g gens -> (g < length R)%nat) /\
        zigzag Dist max_r p IN S n deg k R (LEntry gens coord) (nth k output None))).
  { intros k Hk. destruct (Hloc k Hk) as (o & Eo & H1 & H2). rewrite (Nout k Hk) in Eo. injection Eo as ->. auto. }
  assert (Hbdim : forall k, (k < length (lev n))%nat -> nth k (dims n deg) 0%nat = length (b_bars (hom_of S n k deg))).
  { intros k Hk. rewrite dims_nth by auto. apply (hom0_of _ _ _ _ _ _ _ _ _ HI S PO n k deg ltac:(lia) Hk ltac:(unfold m in Hd; lia)). }
  assert (Hblk : forall k, (k < length (lev n))%nat -> length (blk k) = nth k (dims n deg) 0%nat).
  { intros k Hk. unfold blk. destruct (nth k output None) as [[[B ref] coord]|] eqn:Eo; [|apply repeat_length].
    destruct (Hk_all k Hk) as [H1 H2]. rewrite Hbdim by auto. destruct (b_bars (hom_of S n k deg)) as [|b0 bs] eqn:Eb; [rewrite H1 in Eo by auto; discriminate|].
    destruct (H2 ltac:(discriminate)) as (gens & crd & _ & _ & Z). rewrite Eo in Z. destruct Z as (_ & Z & _). rewrite Eb in Z. exact Z. }
  match goal with |- context [foldM ?f _ _] => set (step := f) end.
  destruct (fold_blocks (fun b l pr => (b, l, pr)) step blk ent (dims n deg) (length (lev n)) ltac:(apply dims_length)) as (lifts & Ef & Ll & Nl).
  { intros k bl lf prev Hk _ HL Hf. unfold step. cbn [fst snd]. rewrite (nth_err_nth output k None) by lia. cbn [bind].
    unfold blk, ent. destruct (nth k output None) as [[[B ref] coord]|] eqn:Eo.
    - destruct (Hk_all k Hk) as [H1 H2]. destruct (b_bars (hom_of S n k deg)) as [|b0 bs] eqn:Eb; [rewrite H1 in Eo by auto; discriminate|].
      destruct (H2 ltac:(discriminate)) as (gens & crd & _ & _ & Z). rewrite Eo in Z. destruct Z as (_ & _ & _ & _ & ZL & _).
      destruct (proj2 (add_entry_ok lf k ref coord ltac:(lia)) ZL) as (l' & E' & L' & O' & N1 & N2). rewrite E'. cbn [bind].
      exists l'. split; [reflexivity|]. split; [lia|]. split; [auto|]. destruct coord as [|w rows]; [rewrite N2 by auto; auto|apply N1; discriminate].
    - exists lf. replace (prev + nth k (dims n deg) 0 - prev)%nat with (nth k (dims n deg) 0%nat) by lia. auto. }
  rewrite Ef. cbn [bind].
  set (B := Mat (length R) (concat (map blk (seq 0 (length (lev n)))))). exists B, lifts.
  split; [auto|]. split; [reflexivity|]. split; [reflexivity|].
  split; [unfold ncols, B; cbn [cols]; apply length_concat_blocks; [apply dims_length|auto]|].
  (* columns of the blocks *)
  assert (Hcolblk : forall k v, (k < length (lev n))%nat -> In v (blk k) -> length v = length R /\ forall g, 0 <= vget v g < p).
  { intros k v Hk Hv. unfold blk in Hv. destruct (nth k output None) as [[[Bk ref] coord]|] eqn:Eo.
    - destruct (Hk_all k Hk) as [H1 H2]. destruct (b_bars (hom_of S n k deg)) as [|b0 bs] eqn:Eb; [rewrite H1 in Eo by auto; discriminate|].
      destruct (H2 ltac:(discriminate)) as (gens & crd & _ & _ & Z). rewrite Eo in Z. destruct Z as (_ & _ & Z1 & _ & _ & _ & Z2 & _).
      rewrite Forall_forall in Z1. split; [apply Z1; auto|]. intros g. apply (In_nth _ _ []) in Hv. destruct Hv as (h & Hh & <-). apply (Z2 g h).
    - apply repeat_spec in Hv. subst v. split; [apply repeat_length|]. intros g. unfold vget, vzero. rewrite nth_repeat. lia. }
  assert (HinB : forall v, In v (cols B) -> length v = length R /\ forall g, 0 <= vget v g < p).
  { intros v Hv. unfold B in Hv. cbn [cols] in Hv. apply in_concat in Hv. destruct Hv as (l & Hl & Hv). apply in_map_iff in Hl. destruct Hl as (k & <- & Hk).
    apply in_seq in Hk. apply (Hcolblk k v); auto. lia. }
  split; [unfold wf_mat; apply Forall_forall; intros v Hv; apply (HinB v Hv)|].
  split.
  { intros g h. unfold get, col. destruct (nth_in_or_default h (cols B) []) as [X|X]; [apply (HinB _ X)|rewrite X]. unfold vget. destruct g; cbn; lia. }
  assert (HBget : forall k g h, (k < length (lev n))%nat -> (h < length (b_bars (hom_of S n k deg)))%nat -> get B g (before n deg k + h) = vget (nth h (blk k) []) g).
  { intros k g h Hk Hh. unfold get, col, B. cbn [cols]. unfold before. rewrite (nth_concat_blocks blk (dims n deg) (length (lev n))); auto; [apply dims_length|]. rewrite Hbdim; auto. }
  assert (Hent : forall k, (k < length (lev n))%nat -> good_entry (length (G n k (Datatypes.S deg))) (ent k) /\ (forall g, In g (le_ref (ent k)) -> (g < length R)%nat) /\
     forall B' ref coord, nth k output None = Some (B', ref, coord) -> forall g j, at_entry (LEntry ref coord) g j = at_entry (ent k) g j).
  { intros k Hk. unfold ent. destruct (nth k output None) as [[[B' ref] coord]|] eqn:Eo.
    2:{ split; [split; [constructor|reflexivity]|]. split; [intros g []|]. intros; discriminate. }
    destruct (Hk_all k Hk) as [H1 H2]. destruct (b_bars (hom_of S n k deg)) as [|b0 bs] eqn:Eb; [rewrite H1 in Eo by auto; discriminate|].
    destruct (H2 ltac:(discriminate)) as (gens & crd & _ & HRg & Z). rewrite Eo in Z. destruct Z as (_ & _ & _ & Z1 & Z2 & Z3 & _).
    destruct coord as [|w rows].
    - split; [split; [constructor|reflexivity]|]. split; [intros g []|]. intros ? ? ? X. injection X as <- <- <-. intros g j. unfold at_entry. cbn [le_ref].
      cbn [lrows length] in Z2. apply length_zero_iff_nil in Z2. subst ref. reflexivity.
    - split; [auto|]. split; [intros g Hgi; apply HRg, Z3; auto|]. intros ? ? ? X. injection X as <- <- <-. reflexivity. }
  split.
  { apply good_intro; [unfold sizes; rewrite map_length, seq_length; exact Ll|]. unfold sizes. rewrite map_length, seq_length. intros k Hk.
    rewrite nth_map_seq by auto. rewrite Nl by auto. apply (Hent k Hk). }
  split.
  { intros k g Hin. destruct (Nat.lt_ge_cases k (length (lev n))) as [Hk|Hk]; [rewrite Nl in Hin by auto; apply (Hent k Hk); auto|].
    rewrite nth_overflow in Hin by lia. destruct Hin. }
  intros k g Hk Hgr. cbv zeta. set (H := hom_of S n k deg). destruct (Hk_all k Hk) as [H1 H2].
  split; [auto|]. destruct (b_bars H) as [|b0 bs] eqn:Eb.
  - assert (Ee : ent k = e0) by (unfold ent; rewrite H1 by auto; reflexivity).
    assert (Ev : forall j, value lifts k g j = 0) by (intros j; unfold value; rewrite Nl by auto; rewrite Ee; reflexivity).
    split; [intros j Hj; rewrite Ev, Zmod_0_l in Hj; congruence|]. split; [intros h Hh; simpl in Hh; lia|]. split; [congruence|].
    intros _. rewrite Nl by auto. auto.
  - rewrite <- Eb in *. assert (Hnb : b_bars H <> []) by (rewrite Eb; discriminate). destruct (H2 Hnb) as (gens & crd & HV & _ & Z).
    destruct (nth k output None) as [[[B' ref] coord]|] eqn:Eo.
    + destruct Z as (_ & ZN & _ & _ & _ & _ & _ & Z). destruct (Z g) as (Z1 & Z2 & Z3). destruct (Hent k Hk) as (_ & _ & Heq). specialize (Heq _ _ _ Eo).
      assert (Eblk : blk k = cols B') by (unfold blk; rewrite Eo; reflexivity).
      assert (Ev : forall j, value lifts k g j = at_entry (LEntry ref coord) g j) by (intros j; unfold value; rewrite Nl by auto; rewrite Heq; reflexivity).
      split; [intros j Hj; rewrite Ev in Hj; apply Z2; auto|].
      split; [intros h Hh Hne; rewrite HBget in Hne by auto; rewrite Eblk in Hne; destruct (Z1 h Hne) as (_ & _ & X1 & X2); fold H in X1, X2; specialize (Hlt g Hgr); lia|].
      split; [|congruence]. intros _ j. rewrite <- HV.
      replace (vbd n deg k (value lifts k g) j) with (vbd n deg k (at_entry (LEntry ref coord) g) j) by (unfold local_bd; apply Zsum_ext; intros x _; rewrite Ev; reflexivity).
      rewrite (Z3 j). apply cong_eq. apply Zsum_ext. intros h Hh. rewrite HBget by auto. rewrite Eblk. reflexivity.
    + (* no generator reaches this simplex *)
      unfold zigzag in Z. cbn [le_ref] in Z. subst gens.
      assert (Ee : ent k = e0) by (unfold ent; rewrite Eo; reflexivity).
      assert (Ev : forall j, value lifts k g j = 0) by (intros j; unfold value; rewrite Nl by auto; rewrite Ee; reflexivity).
      assert (Eblk : forall h, vget (nth h (blk k) []) g = 0).
      { intros h. unfold blk. rewrite Eo. destruct (nth_in_or_default h (repeat (vzero (length R)) (nth k (dims n deg) 0%nat)) []) as [X|X].
        - apply repeat_spec in X. rewrite X. unfold vget, vzero. apply nth_repeat.
        - rewrite X. destruct g; reflexivity. }
      split; [intros j Hj; rewrite Ev, Zmod_0_l in Hj; congruence|].
      split; [intros h Hh Hne; rewrite HBget, Eblk in Hne by auto; congruence|]. split; [|congruence]. intros _ j.
      rewrite <- HV. change (at_entry (LEntry [] crd) g j) with 0. apply cong_eq. unfold local_bd. rewrite !Zsum_0; [ring| |].
      * intros h Hh. rewrite HBget, Eblk by auto. ring.
      * intros x _. rewrite Ev. ring.
Qed.

Lemma cong_sub_0 a b : cong p (a - b) 0 <-> cong p a b.
Proof. unfold cong. rewrite Z.sub_0_r. reflexivity. Qed.

Lemma cong_iff a b : cong p a b <-> a mod p = b mod p.
Proof. apply cong_iff_mod. pose proof (prime_ge_2 _ Hp). lia. Qed.

(** ** Numbering of the classes *)
Lemma before_classes n deg k : (n < length nerve)%nat -> (deg <= m)%nat -> (k <= length (lev n))%nat -> before n deg k = classes_before S n deg k.
Proof.
  intros Hn Hd Hk. unfold before, classes_before, SS_zig.dims. rewrite firstn_map, firstn_seq0 by exact Hk. f_equal. apply map_ext_in. intros i Hi.
  apply in_seq in Hi. apply (hom0_of _ _ _ _ _ _ _ _ _ HI S PO n i deg Hn ltac:(cbv beta; fold (lev n); lia) Hd).
Qed.

Lemma dims_classes n deg : (n < length nerve)%nat -> (deg <= m)%nat -> list_sum (dims n deg) = classes n0 nerve S n deg.
Proof.
  intros Hn Hd. unfold classes. fold (lev n). rewrite <- before_classes by auto. unfold before. rewrite firstn_all2; [reflexivity|]. rewrite dims_length. apply le_n.
Qed.

(** ** The Cech image *)
Lemma coeff_bdc t s : coeff t s = bdc t s.
Proof.
  unfold coeff, bdc. apply Zsum_ext. intros k _. unfold sg, ind. destruct (list_eq_dec Nat.eq_dec (facet k s) t) as [E|E].
  - replace (simp_eqb _ _) with true by (symmetry; apply simp_eqb_eq; auto). ring.
  - destruct (simp_eqb _ _) eqn:E'; [apply simp_eqb_eq in E'; congruence|]. ring.
Qed.

Lemma Dn_bd n k s : (n < length nerve)%nat -> (k < length (lev n))%nat -> (s < length (lev (Datatypes.S n)))%nat -> cong p (Dn S n k s) (nerve_bd n0 nerve n k s).
Proof.
  intros Hn Hk Hs. destruct (ndiff_ok _ _ _ _ _ _ _ _ _ HI S PO n Hn) as (_ & _ & _ & _ & H). unfold Dn. rewrite H by auto. rewrite cong_mod.
  unfold nerve_bd. rewrite coeff_bdc. unfold dsign. reflexivity.
Qed.

Lemma G_nil n k d : (n < length nerve)%nat -> (k < length (lev n))%nat -> (d <= m)%nat -> ~ In [] (G n k d).
Proof.
  intros Hn Hk Hd H. apply (G_In _ _ _ _ _ _ _ _ _ HI S PO n k Hn Hk d _ Hd) in H. destruct H as ((L & _) & _). discriminate.
Qed.

Lemma cech_image_out n d k v j : (Datatypes.S n < length nerve)%nat -> (k < length (lev n))%nat -> (d <= m)%nat -> (length (G n k d) <= j)%nat -> cech_image n0 nerve IN S n d k v j = 0.
Proof.
  intros Hn Hk Hd Hj. unfold cech_image. rewrite (nth_overflow _ _ Hj). rewrite Zsum_0; [ring|]. intros s Hs. rewrite on_simplices_out; [ring|]. apply G_nil; auto.
Qed.

Lemma cech_value n deg start c k g j : (Datatypes.S n < length nerve)%nat -> (deg <= m)%nat -> has_cofaces n0 nerve n ->
  good (widths (Datatypes.S n) deg) start -> cech_diff S n deg start = Ok c -> (k < length (lev n))%nat ->
  cong p (value c k g j) (cech_image n0 nerve IN S n deg k (fun s => value start s g) j).
Proof.
  intros Hn Hd Hc Hg E Hk. destruct (Nat.lt_ge_cases j (length (G n k deg))) as [Hj|Hj].
  - rewrite (gval_index _ _ _ _ _ _ _ _ _ HI S PO c n deg k g j) by (auto; lia).
    rewrite (cech_formula _ _ _ _ _ _ _ _ _ HI S PO n deg start c Hn Hd Hc Hg E k g _ Hk). unfold cech_image, sg. apply cong_mul; [reflexivity|].
    apply Zsum_cong. intros s Hs. apply cong_mul; [|reflexivity]. apply Dn_bd; auto. lia.
  - rewrite cech_image_out by auto. destruct (cech_diff_ok _ _ _ _ _ _ _ _ _ HI S PO n deg start Hn Hd Hc Hg) as (c' & E' & Hgc & _).
    rewrite E in E'. injection E' as <-. rewrite (good_out _ c k g j Hgc); [reflexivity|]. change (nth k (widths n deg) 0 <= j)%nat. rewrite sizes_nth by auto. auto.
Qed.

Lemma local_chain_cong n d k r v v' : (forall j, cong p (v j) (v' j)) -> local_chain p Dist IN S n d k r v -> local_chain p Dist IN S n d k r v'.
Proof. intros H Hv j Hj. apply Hv. intros X. apply Hj. rewrite <- (proj1 (cong_iff (v j) (v' j)) (H j)). auto. Qed.

Lemma local_bd_cong n d k v v' j : (forall i, cong p (v i) (v' i)) -> cong p (vbd n d k v j) (vbd n d k v' j).
Proof. intros H. unfold local_bd. apply Zsum_cong. intros i _. apply cong_mul; [reflexivity|auto]. Qed.

Lemma local_cycle_cong n d k r v v' : (forall j, cong p (v j) (v' j)) -> local_cycle p Dist IN S n d k r v -> local_cycle p Dist IN S n d k r v'.
Proof.
  intros H [H1 H2]. split; [apply (local_chain_cong _ _ _ _ v); auto|]. destruct d as [|d]; [auto|]. intros i.
  rewrite <- (proj1 (cong_iff _ _) (local_bd_cong n d k v v' i H)). auto.
Qed.

Lemma local_bounds_cong n d k r v v' : (forall j, cong p (v j) (v' j)) -> local_bounds p Dist IN S n d k r v -> local_bounds p Dist IN S n d k r v'.
Proof. intros H (w & H1 & H2). exists w. split; auto. intros j. rewrite H2. apply cong_iff. auto. Qed.

Lemma local_bounds_opp n d k r w v : local_chain p Dist IN S n (Datatypes.S d) k r w -> (forall j, cong p (v j + vbd n d k w j) 0) -> local_bounds p Dist IN S n d k r v.
Proof.
  intros Hw H. exists (fun i => - w i). split.
  - intros j Hj. apply Hw. intros X. apply Hj. rewrite Z.mod_opp_l_z; [reflexivity| |auto]. pose proof (prime_ge_2 _ Hp). lia.
  - intros j. apply cong_iff. replace (vbd n d k (fun i => - w i) j) with (- vbd n d k w j).
    2:{ unfold local_bd. rewrite <- Zsum_opp. apply Zsum_ext. intros; ring. }
    specialize (H j). apply cong_sub_0. replace (- vbd n d k w j - v j) with (- (v j + vbd n d k w j)) by ring. rewrite H. apply cong_eq. ring.
Qed.

Lemma lev_facets n : (Datatypes.S n < length nerve)%nat -> lev (Datatypes.S n) <> [] -> lev n <> [].
Proof.
  intros Hn Hl X. destruct (lev (Datatypes.S n)) as [|s l] eqn:E; [congruence|]. destruct (cov_simp _ _ _ _ HC) as (_ & _ & H).
  specialize (H n s 0%nat). fold (lev n) in H. fold (lev (Datatypes.S n)) in H. rewrite X, E in H. apply H; [left; auto|lia].
Qed.

(** ** [first_differential] *)
Theorem first_differential_ok n deg : (Datatypes.S n < length nerve)%nat -> (deg < m)%nat -> has_cofaces n0 nerve n ->
  exists o, first_differential S n deg = Ok o /\
  match o with
  | None => classes n0 nerve S (Datatypes.S n) deg = 0%nat
  | Some B =>
      classes n0 nerve S (Datatypes.S n) deg <> 0%nat /\
      nrows B = classes n0 nerve S (Datatypes.S n) deg /\ ncols B = classes n0 nerve S n deg /\ wf_mat B /\ (forall g h, 0 <= get B g h < p) /\
      forall s a k, (s < length (lev (Datatypes.S n)))%nat -> (a < length (b_bars (hom_of S (Datatypes.S n) s deg)))%nat -> (k < length (lev n))%nat ->
        let g := (classes_before S (Datatypes.S n) deg s + a)%nat in
        let r := bbirth (b_bars (hom_of S (Datatypes.S n) s deg)) a in
        let H := hom_of S n k deg in
        let img := cech_image n0 nerve IN S n deg k (fun s' i => if Nat.eqb s' s then get (b_coords (hom_of S (Datatypes.S n) s deg)) i a else 0) in
        local_cycle p Dist IN S n deg k r img /\
        (forall h, (h < length (b_bars H))%nat -> get B g (classes_before S n deg k + h) <> 0 -> bbirth (b_bars H) h <= r < bdeath (b_bars H) h) /\
        local_bounds p Dist IN S n deg k r (fun j => img j - Zsum (length (b_bars H)) (fun h => get B g (classes_before S n deg k + h) * get (b_coords H) j h))
  end.
Proof.
  intros Hn Hd Hc. unfold first_differential.
  assert (Hp2 : 2 <= p) by (apply prime_ge_2; auto). cbn [Nat.add].
  destruct (list_eq_dec (fun x y : list nat => ltac:(decide equality; apply Nat.eq_dec)) (lev (Datatypes.S n)) []) as [Hl0|Hl0].
  { assert (Epage : page_dim1 S (Datatypes.S n) deg = Ok 0%nat).
    { unfold page_dim1. rewrite (nth_err_nth (s_cols S) (Datatypes.S n) no_column) by (rewrite (po_cols _ _ _ _ _ _ _ _ _ _ PO); lia). cbn [bind].
      pose proof (po_col _ _ _ _ _ _ _ _ _ _ PO (Datatypes.S n) ltac:(lia)) as E. pose proof (po_count _ _ _ _ _ _ _ _ _ _ PO (Datatypes.S n) ltac:(lia)) as L.
      cbv beta in L, E. fold (lev (Datatypes.S n)) in L, E. rewrite Hl0 in L. apply length_zero_iff_nil in L. rewrite L, add_output_first_nil in E. injection E as E.
      rewrite <- E. cbn [c_dim]. rewrite (nth_err_nth _ deg 0%nat) by (rewrite repeat_length; auto). rewrite nth_repeat. reflexivity. }
    rewrite Epage. cbn [bind Nat.eqb]. exists None. split; [reflexivity|]. unfold classes. fold (lev (Datatypes.S n)). rewrite Hl0. reflexivity. }
  destruct (cyc_ok _ _ _ _ _ _ _ _ _ HI S PO (Datatypes.S n) deg Hn Hl0 Hd) as [Ecyc Epage].
  rewrite Epage. cbn [bind]. rewrite <- dims_classes by (auto; lia).
  destruct (Nat.eqb_spec (list_sum (dims (Datatypes.S n) deg)) 0) as [Ht|Ht]; [exists None; auto|].
  rewrite (spx_ok _ _ _ _ _ _ _ _ _ _ PO (Datatypes.S n)) by lia. cbn [bind]. fold (lev (Datatypes.S n)). rewrite Ecyc. cbn [bind].
  rewrite removelast_cyc, dims_length. fold (lev (Datatypes.S n)).
  set (hom := fun s => hom_of S (Datatypes.S n) s deg). set (N := length (lev (Datatypes.S n))). set (ds := dims (Datatypes.S n) deg).
  assert (Hdim : forall s, (s < N)%nat -> nth s ds 0%nat = length (b_bars (hom s)) /\ b_dim (hom s) = length (b_bars (hom s)) /\ hom0 (loc (Datatypes.S n) s) deg = Ok (hom s)).
  { intros s Hs. destruct (hom0_of _ _ _ _ _ _ _ _ _ HI S PO (Datatypes.S n) s deg Hn Hs ltac:(unfold m in Hd; lia)) as [E1 E2].
    unfold ds. rewrite dims_nth by auto. auto. }
  assert (Hshape : forall s, (s < N)%nat -> length (cols (b_coords (hom s))) = length (b_bars (hom s)) /\
     (b_bars (hom s) <> [] -> nrows (b_coords (hom s)) = length (G (Datatypes.S n) s deg)) /\ Forall (fun v => length v = length (G (Datatypes.S n) s deg)) (cols (b_coords (hom s))) /\
     forall a, (a < length (b_bars (hom s)))%nat -> bbirth (b_bars (hom s)) a < max_r /\
        local_cycle p Dist IN S (Datatypes.S n) deg s (bbirth (b_bars (hom s)) a) (fun i => get (b_coords (hom s)) i a)).
  { intros s Hs. destruct (loc_ok _ _ _ _ _ _ _ _ _ S PO (Datatypes.S n) s Hn Hs) as [Rs OK].
    pose proof (lo_valid _ _ _ _ _ _ _ _ OK) as VC. pose proof (lo_ph _ _ _ _ _ _ _ _ OK) as PH. pose proof (lo_Ds _ _ _ _ _ _ _ _ OK) as LD.
    assert (Hdd : (deg <= length (l_Ds (loc (Datatypes.S n) s)))%nat) by (unfold loc; rewrite LD; fold m; lia).
    destruct (bases_shape rnd p max_r _ _ Rs _ Hp VC PH deg Hdd) as (_ & A2 & _ & A4 & _ & A6 & _ & A8).
    change (nth deg (ph_hom (l_out (loc_of S (Datatypes.S n) s))) empty_basis) with (hom s) in *.
    rewrite (csize_G _ _ _ _ _ _ _ (Datatypes.S n) s Rs OK deg) in *.
    split; [unfold vec in *; lia|]. split; [intros Hne; apply A6; rewrite <- A4; destruct (b_bars (hom s)); [congruence|discriminate]|]. split; [auto|].
    intros a Ha. destruct (C23_aux rnd p max_r _ _ Rs _ Hp VC PH) as (_ & _ & _ & Hsh). specialize (Hsh deg Hdd). cbv zeta in Hsh.
    change (nth deg (ph_hom (l_out (loc_of S (Datatypes.S n) s))) empty_basis) with (hom s) in Hsh.
    destruct Hsh as (Hb & _). specialize (Hb a Ha). split; [lia|].
    apply (cycle_iff _ _ _ _ _ _ _ _ _ HI S PO (Datatypes.S n) s Hn Hs Rs OK deg); [fold m; lia|].
    destruct (C19_aux rnd p max_r _ _ Rs _ Hp VC PH deg a Hdd) as [H19 _]; [exact Ha|]. exact H19. }
  match goal with |- context [foldM ?f _ _] => set (step := f) end.
  set (blk := fun s => births (hom s)).
  set (ent := fun s => if Nat.eqb (nth s ds 0%nat) 0 then e0 else LEntry (seq (list_sum (firstn s ds)) (nth s ds 0%nat)) (LMat (nrows (b_coords (hom s))) (cols (b_coords (hom s))))).
  destruct (fold_blocks (fun b l pr => (l, b, pr)) step blk ent ds N ltac:(apply dims_length)) as (dom & Ef & Ll & Nl).
  { intros s bl lf prev Hs Hpr HL Hf. unfold step. cbn [fst snd]. destruct (Hdim s Hs) as (D1 & D2 & D3). destruct (Hshape s Hs) as (S1 & _).
    unfold ent, blk. destruct (Nat.eqb_spec (nth s ds 0%nat) 0) as [E0|E0].
    - destruct (Nat.ltb_spec prev (prev + nth s ds 0%nat)%nat); [lia|]. rewrite D1 in E0. apply length_zero_iff_nil in E0.
      exists lf. unfold births. rewrite E0. cbn [map]. rewrite app_nil_r. rewrite D1, E0. cbn [length]. rewrite Nat.add_0_r. auto.
    - destruct (Nat.ltb_spec prev (prev + nth s ds 0%nat)%nat); [|lia]. rewrite (the_local_ok _ _ _ _ _ _ _ _ _ S PO (Datatypes.S n) s Hn Hs). cbn [bind].
      change (loc_of S (Datatypes.S n) s) with (loc (Datatypes.S n) s). rewrite D3. cbn [bind].
      replace (prev + nth s ds 0%nat - prev)%nat with (nth s ds 0%nat) by lia. rewrite <- Hpr.
      destruct (proj2 (add_entry_ok lf s (seq prev (nth s ds 0%nat)) (LMat (nrows (b_coords (hom s))) (cols (b_coords (hom s)))) ltac:(lia))) as (l' & E' & L' & O' & N1 & N2).
      { rewrite seq_length. cbn [lrows]. unfold vec in *. lia. }
      rewrite E'. cbn [bind]. exists l'. split; [reflexivity|]. split; [lia|]. split; [auto|]. apply N1. discriminate. }
  rewrite Ef. cbn [bind]. set (R := concat (map blk (seq 0 N))) in *.
  assert (LR : length R = list_sum ds).
  { unfold R. apply length_concat_blocks; [apply dims_length|]. intros s Hs. unfold blk, births. rewrite map_length. symmetry. apply Hdim. auto. }
  assert (NR : forall s a, (s < N)%nat -> (a < length (b_bars (hom s)))%nat -> nth (list_sum (firstn s ds) + a) R 0 = bbirth (b_bars (hom s)) a).
  { intros s a Hs Ha. unfold R. rewrite (nth_concat_blocks blk ds N); auto; [|apply dims_length| |rewrite (proj1 (Hdim s Hs)); auto].
    - unfold blk, births, bbirth. rewrite (nth_map fst _ a (0, 0)) by auto. reflexivity.
    - intros i Hi. unfold blk, births. rewrite map_length. symmetry. apply Hdim. auto. }
  assert (Hgood : good (widths (Datatypes.S n) deg) dom).
  { apply good_intro; [unfold sizes; rewrite map_length, seq_length; exact Ll|]. unfold sizes. rewrite map_length, seq_length. intros s Hs.
    rewrite nth_map_seq by auto. fold (lev (Datatypes.S n)) in Hs. fold N in Hs. rewrite Nl by auto. unfold ent. destruct (Nat.eqb_spec (nth s ds 0%nat) 0) as [E0|E0].
    - split; [constructor|reflexivity].
    - destruct (Hshape s Hs) as (S1 & S2 & S3 & _). split; [apply seq_sorted|]. cbn [le_coord le_ref]. rewrite seq_length. rewrite (proj1 (Hdim s Hs)) in *.
      split; [apply S2; intros X; rewrite X in E0; simpl in E0; lia|]. auto. }
  (* the windows *)
  assert (Hwin : forall g, (g < length R)%nat -> exists s a, (s < N)%nat /\ (a < length (b_bars (hom s)))%nat /\ g = (list_sum (firstn s ds) + a)%nat).
  { intros g Hgr. rewrite LR in Hgr. destruct (window_exists ds g Hgr) as (s & Hs & H1 & H2).
    rewrite list_sum_firstn_S in H2 by auto. unfold ds in Hs. rewrite dims_length in Hs. fold (lev (Datatypes.S n)) in Hs. fold N in Hs.
    exists s, (g - list_sum (firstn s ds))%nat. split; [auto|]. rewrite <- (proj1 (Hdim s Hs)). lia. }
  assert (Hval : forall s s' a j, (s < N)%nat -> (a < length (b_bars (hom s)))%nat -> (s' < N)%nat ->
     value dom s' (list_sum (firstn s ds) + a)%nat j = if Nat.eqb s' s then get (b_coords (hom s)) j a else 0).
  { intros s s' a j Hs Ha Hs'. unfold value. rewrite Nl by auto. unfold ent. pose proof (proj1 (Hdim s Hs)) as D1. pose proof (proj1 (Hdim s' Hs')) as D1'.
    destruct (Nat.eqb_spec s' s) as [->|Hne].
    - destruct (Nat.eqb_spec (nth s ds 0%nat) 0) as [E0|E0]; [lia|]. unfold at_entry. cbn [le_ref le_coord lrows].
      replace (list_sum (firstn s ds) + a)%nat with (nth a (seq (list_sum (firstn s ds)) (nth s ds 0%nat)) 0%nat) by (rewrite seq_nth; lia).
      rewrite find_idx_nth; [reflexivity|apply seq_NoDup|rewrite seq_length; lia].
    - destruct (Nat.eqb_spec (nth s' ds 0%nat) 0) as [E0|E0]; [reflexivity|]. unfold at_entry. cbn [le_ref]. rewrite find_idx_notin; [reflexivity|].
      intros Hin. apply in_seq in Hin. apply Hne. assert (LN : length ds = N) by apply dims_length. apply (window_unique ds (list_sum (firstn s ds) + a)%nat); rewrite list_sum_firstn_S by lia; lia. }
  assert (Hv0 : forall s' g j, (s' < N)%nat -> (g < length R)%nat -> exists s a, (s < N)%nat /\ (a < length (b_bars (hom s)))%nat /\ g = (list_sum (firstn s ds) + a)%nat /\
     value dom s' g j = if Nat.eqb s' s then get (b_coords (hom s)) j a else 0).
  { intros s' g j Hs' Hgr. destruct (Hwin g Hgr) as (s & a & H1 & H2 & ->). exists s, a. auto. }
  destruct (cech_diff_and_lift_ok n deg dom R Hn Hd Hc Hgood) as (c & B & lifts & Ec & Ecl & B1 & B2 & B3 & B4 & _ & _ & HB).
  - intros s g Hin. destruct (Nat.lt_ge_cases s N) as [Hs|Hs]; [|rewrite nth_overflow in Hin by (rewrite Ll; auto); destruct Hin].
    rewrite Nl in Hin by auto. unfold ent in Hin. destruct (Nat.eqb_spec (nth s ds 0%nat) 0) as [E0|E0]; [destruct Hin|]. cbn [le_ref] in Hin. apply in_seq in Hin.
    rewrite LR. assert (Hle : (list_sum (firstn (Datatypes.S s) ds) <= list_sum ds)%nat) by (apply list_sum_firstn_le).
    rewrite list_sum_firstn_S in Hle by (unfold ds; rewrite dims_length; exact Hs). lia.
  - intros g Hgr. destruct (Hwin g Hgr) as (s & a & Hs & Ha & ->). rewrite NR by auto. destruct (Hshape s Hs) as (_ & _ & _ & H). apply H. auto.
  - intros s' g Hs' Hgr. destruct (Hwin g Hgr) as (s & a & Hs & Ha & ->). rewrite NR by auto.
    destruct (Nat.eq_dec s' s) as [->|Hne].
    + destruct (Hshape s Hs) as (_ & _ & _ & H). destruct (H a Ha) as [_ HH].
      apply (local_cycle_cong _ _ _ _ (fun i => get (b_coords (hom s)) i a)); [|exact HH]. intros j. rewrite Hval by auto. rewrite Nat.eqb_refl. reflexivity.
    + apply (local_cycle_cong _ _ _ _ (fun _ => 0)).
      * intros j. rewrite Hval by auto. destruct (Nat.eqb_spec s' s); [congruence|reflexivity].
      * split; [intros j Hj; rewrite Zmod_0_l in Hj; congruence|]. destruct deg; [auto|]. intros i. unfold local_bd. rewrite Zsum_0; [apply Zmod_0_l|]. intros; ring.
  - intros _. apply lev_facets; auto.
  - rewrite Ecl. cbn [bind]. exists (Some B). split; [reflexivity|].
    split; [exact Ht|]. split; [rewrite B1; exact LR|]. split; [rewrite <- dims_classes by (auto; lia); exact B2|]. split; [exact B3|]. split; [exact B4|].
    intros s a k Hs Ha Hk. fold N in Hs. fold (hom s) in Ha.
    rewrite <- (before_classes n deg k) by (auto; lia). rewrite <- (before_classes (Datatypes.S n) deg s) by (auto; fold N; lia).
    unfold before at 1. fold ds. cbv zeta. fold (hom s). set (g := (list_sum (firstn s ds) + a)%nat).
    change (before (Datatypes.S n) deg s + a)%nat with g.
    assert (Hgr : (g < length R)%nat).
    { rewrite LR. unfold g. assert (Hle : (list_sum (firstn (Datatypes.S s) ds) <= list_sum ds)%nat) by (apply list_sum_firstn_le).
      rewrite list_sum_firstn_S in Hle by (unfold ds; rewrite dims_length; exact Hs). rewrite (proj1 (Hdim s Hs)) in Hle. lia. }
    destruct (HB k g Hk Hgr) as (Z1 & Z2 & Z3 & Z4 & Z5). assert (ER : nth g R 0 = bbirth (b_bars (hom s)) a) by (apply NR; auto). rewrite ER in *.
    set (img := cech_image n0 nerve IN S n deg k _).
    assert (Hv : forall j, cong p (value c k g j) (img j)).
    { intros j. rewrite (cech_value n deg dom c k g j Hn ltac:(lia) Hc Hgood Ec Hk). apply cong_eq. unfold img, cech_image. f_equal. apply Zsum_ext. intros s' Hs'.
      f_equal. unfold on_simplices. apply Zsum_ext. intros i _. destruct (list_eq_dec _ _ _); [|reflexivity]. apply Hval; auto. }
    assert (Himg : local_cycle p Dist IN S n deg k (bbirth (b_bars (hom s)) a) img) by (apply (local_cycle_cong _ _ _ _ (value c k g)); auto).
    split; [exact Himg|]. split; [exact Z3|].
    destruct (b_bars (hom_of S n k deg)) as [|b0 bs] eqn:Eb.
    + destruct (loc_ok _ _ _ _ _ _ _ _ _ S PO n k ltac:(lia) Hk) as [Rs OK].
      pose proof (lo_valid _ _ _ _ _ _ _ _ OK) as VC. pose proof (lo_ph _ _ _ _ _ _ _ _ OK) as PH. pose proof (lo_Ds _ _ _ _ _ _ _ _ OK) as LD.
      destruct (C20_aux rnd p max_r _ _ Rs _ Hp VC PH deg (bbirth (b_bars (hom s)) a)) as (_ & Hsp & _).
      { unfold loc in LD. rewrite LD. fold m. lia. }
      { destruct (Hshape s Hs) as (_ & _ & _ & H). apply H. auto. }
      apply (bounds_iff _ _ _ _ _ _ _ _ _ HI S PO n k ltac:(lia) Hk Rs OK deg _ _ Hd).
      destruct (Hsp img) as (cf & _ & Hb); [apply (cycle_iff _ _ _ _ _ _ _ _ _ HI S PO n k ltac:(lia) Hk Rs OK deg); [fold m; lia|exact Himg]|].
      change (nth deg (ph_hom (l_out (loc_of S n k))) empty_basis) with (hom_of S n k deg) in Hb. rewrite Eb in Hb. cbn [length] in *. exact Hb.
    + rewrite <- Eb in *. apply (local_bounds_opp _ _ _ _ (value lifts k g)); [exact Z2|]. intros j. specialize (Z4 ltac:(rewrite Eb; discriminate) j).
      rewrite <- (Hv j). apply cong_sub_0 in Z4. rewrite <- Z4. apply cong_eq. ring.
Qed.
End First.
