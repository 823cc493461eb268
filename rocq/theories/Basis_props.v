(** * Proofs about [barcode_basis] *)
From Verif Require Import Base ListX SortX Lin Gauss_model Basis_model.
From Coq Require Import Sorting.Permutation Sorting.Sorted.
Local Open Scope Z_scope.

Lemma mask_filter_map {A} (f : A -> bool) l : mask_filter (map f l) l = filter f l.
Proof. induction l as [|x l IH]; simpl; auto. destruct (f x); rewrite IH; auto. Qed.

Lemma mask_filter_combine {A B} (f : A -> bool) (l : list A) (l' : list B) : length l = length l' ->
  mask_filter (map f l) l' = map snd (filter (fun x => f (fst x)) (combine l l')).
Proof.
  revert l'. induction l as [|x l IH]; intros [|y l'] H; simpl in *; try discriminate; auto.
  destruct (f x); simpl; rewrite IH; auto.
Qed.

Lemma filter_map_id {A} (f : A -> bool) l : length (filter (fun b => b) (map f l)) = length (filter f l).
Proof. induction l as [|x l IH]; simpl; auto. destruct (f x); simpl; auto. Qed.

Definition nontrivial (b : bar) : bool := fst b <? snd b.

Lemma mk_basis_bars flat bars prev coords store broken bdiff b :
  mk_basis flat bars prev coords store broken bdiff = Ok b ->
  b_bars b = filter nontrivial bars /\ b_dim b = length (filter nontrivial bars).
Proof.
  unfold mk_basis. destruct (broken && _); [discriminate|].
  destruct (mk_coords bars prev coords) as [c|]; cbn [bind]; [|discriminate].
  destruct (store && _); [discriminate|].
  destruct (mk_brk _ _ _) as [k|]; cbn [bind]; [|discriminate].
  intros H. injection H as <-. cbn [b_bars b_dim].
  destruct (Nat.eqb_spec (length bars) 0) as [E|E].
  - destruct bars; [split; reflexivity|discriminate].
  - split; [apply mask_filter_map|]. unfold well_defined. rewrite filter_map_id. reflexivity.
Qed.

Lemma mk_basis_C28 flat bars pb coords store broken bdiff b :
  mk_basis flat bars (Some pb) coords store broken bdiff = Ok b -> (0 < ncols coords)%nat ->
  b_bars b = filter nontrivial bars /\ b_dim b = length (b_bars b) /\
  nrows (b_coords b) = b_dim pb /\
  combine (b_bars b) (cols (b_coords b)) =
    filter (fun x => nontrivial (fst x)) (combine bars (cols coords)) /\
  length (cols (b_coords b)) = length (b_bars b).
Proof.
  intros H Hc. pose proof (mk_basis_bars _ _ _ _ _ _ _ _ H) as [H1 H2]. rewrite H1, H2.
  split; auto. split; auto.
  unfold mk_basis, mk_coords in H. destruct (broken && _); [discriminate|].
  destruct (Nat.ltb_spec 0 (ncols coords)); [|lia].
  destruct (Nat.eqb_spec (nrows coords) (b_dim pb)) as [E1|]; [|discriminate]. cbn [negb] in H.
  destruct (Nat.eqb_spec (length bars) (ncols coords)) as [E2|]; [|discriminate]. cbn [negb bind] in H.
  destruct (store && _); [discriminate|].
  destruct (mk_brk _ _ _) as [k|]; cbn [bind] in H; [|discriminate].
  injection H as <-. cbn [b_coords nrows cols]. split; auto.
  unfold well_defined. rewrite mask_filter_combine by auto.
  unfold nontrivial. clear -E2. unfold ncols in E2. unfold vec in *. revert E2. generalize (cols coords) as l'. intros l'. revert l'.
  induction bars as [|x bars IH]; intros [|y l'] E; simpl in *; try discriminate; auto.
  destruct (IH l') as [IH1 IH2]; [lia|].
  destruct (fst x <? snd x) eqn:Nx; simpl; auto.
  split; [f_equal; auto|congruence].
Qed.

(** Exact error behaviour of the constructor. *)
Lemma mk_basis_errors flat bars prev coords store broken bdiff :
  let bad_coords := match prev with
    | Some pb => (0 < ncols coords)%nat /\ (nrows coords <> b_dim pb \/ length bars <> ncols coords)
    | None => False end in
  let bad_broken := broken = true /\ match bdiff with
    | None => True
    | Some M => nrows M <> length (filter nontrivial bars) \/ ncols M <> length (filter nontrivial bars) end in
  ((exists b, mk_basis flat bars prev coords store broken bdiff = Ok b) <->
     ~ bad_coords /\ ~ bad_broken /\ ~ (store = true /\ bars = [])) /\
  (forall e, mk_basis flat bars prev coords store broken bdiff = Err e ->
     e = ValueError \/ e = UnboundLocalError) /\
  (bad_coords -> mk_basis flat bars prev coords store broken bdiff = Err ValueError) /\
  (bad_broken -> ~ (store = true /\ bars = []) -> mk_basis flat bars prev coords store broken bdiff = Err ValueError).
Proof.
  intros bad_coords bad_broken.
  set (D := length (filter nontrivial bars)) in *.
  assert (HD : (if Nat.eqb (length bars) 0 then 0%nat else length (filter (fun b => b) (well_defined bars))) = D).
  { unfold D. destruct (Nat.eqb_spec (length bars) 0).
    - destruct bars; [reflexivity|discriminate].
    - unfold well_defined. rewrite filter_map_id. reflexivity. }
  unfold mk_basis. rewrite HD.
  assert (HC : (bad_coords /\ mk_coords bars prev coords = Err ValueError) \/
               (~ bad_coords /\ exists c, mk_coords bars prev coords = Ok c)).
  { unfold bad_coords, mk_coords. destruct prev as [pb|]; [|right; split; eauto].
    destruct (Nat.ltb_spec 0 (ncols coords)); [|right; split; [lia|eauto]].
    destruct (Nat.eqb_spec (nrows coords) (b_dim pb)); cbn [negb]; [|left; auto].
    destruct (Nat.eqb_spec (length bars) (ncols coords)); cbn [negb]; [|left; auto].
    right. split; [lia|eauto]. }
  assert (HB : (bad_broken /\ mk_brk broken bdiff D = Err ValueError) \/
               (~ bad_broken /\ exists c, mk_brk broken bdiff D = Ok c)).
  { unfold bad_broken, mk_brk. destruct broken; [|right; split; [intros [X _]; discriminate|eauto]].
    destruct bdiff as [M|]; [|left; auto].
    destruct (Nat.eqb_spec (nrows M) D); simpl; [|left; auto].
    destruct (Nat.eqb_spec (ncols M) D); simpl; [|left; auto].
    right. split; [lia|eauto]. }
  assert (HS : store && Nat.eqb (length bars) 0 = true <-> store = true /\ bars = []).
  { rewrite andb_true_iff, Nat.eqb_eq. destruct bars; simpl; intuition discriminate. }
  destruct (broken && match bdiff with Some _ => false | None => true end) eqn:E0.
  - apply andb_true_iff in E0. destruct E0 as [-> E0]. destruct bdiff; [discriminate|].
    assert (bad_broken) by (split; auto).
    split; [|split; [|split]]; auto.
    + split; [intros [b X]; discriminate|]. tauto.
    + intros e X. injection X as <-. auto.
  - destruct HC as [[HC ->]|[HC [c ->]]]; cbn [bind].
    + split; [|split; [|split]]; auto.
      * split; [intros [b X]; discriminate|]. tauto.
      * intros e X. injection X as <-. auto.
    + destruct (store && Nat.eqb (length bars) 0) eqn:Es.
      * assert (store = true /\ bars = []) by (apply HS; auto).
        split; [|split; [|split]]; auto; try tauto.
        -- split; [intros [b X]; discriminate|]. tauto.
        -- intros e X. injection X as <-. auto.
      * assert (~ (store = true /\ bars = [])) by (rewrite <- HS; congruence).
        destruct HB as [[HB ->]|[HB [k ->]]]; cbn [bind].
        -- split; [|split; [|split]]; auto; try tauto.
           ++ split; [intros [b X]; discriminate|]. tauto.
           ++ intros e X. injection X as <-. auto.
        -- split; [|split; [|split]]; try tauto.
           ++ split; eauto.
           ++ discriminate.
Qed.

(** ** Sorting *)

(** The standard order on rounded bars, strict in the original position. *)
Definition bar_before (rnd : Z -> Z) (bars : list bar) (i j : nat) : Prop :=
  let a := nth i bars (0, 0) in let b := nth j bars (0, 0) in
  rnd (fst a) < rnd (fst b) \/
  (rnd (fst a) = rnd (fst b) /\ rnd (snd b) < rnd (snd a)) \/
  (rnd (fst a) = rnd (fst b) /\ rnd (snd a) = rnd (snd b) /\ (i < j)%nat).

Lemma bar_before_trans rnd bars i j k : bar_before rnd bars i j -> bar_before rnd bars j k -> bar_before rnd bars i k.
Proof. unfold bar_before. lia. Qed.
Lemma bar_before_irrefl rnd bars i : ~ bar_before rnd bars i i.
Proof. unfold bar_before. lia. Qed.

Lemma nth_aux rnd (bars : list bar) i : (i < length bars)%nat ->
  nth i (map (fun b => (rnd (fst b), rnd (snd b))) bars) (0, 0) =
  (rnd (fst (nth i bars (0, 0))), rnd (snd (nth i bars (0, 0)))).
Proof. intros H. rewrite (nth_map _ _ _ (0, 0)) by auto. reflexivity. Qed.

Lemma sort_order_perm rnd bars : Permutation (seq 0 (length bars)) (sort_order rnd bars).
Proof. apply isort_perm. Qed.

Lemma sort_order_lt rnd bars i : In i (sort_order rnd bars) <-> (i < length bars)%nat.
Proof. unfold sort_order. rewrite isort_In, in_seq. lia. Qed.

Lemma sort_order_length rnd bars : length (sort_order rnd bars) = length bars.
Proof. unfold sort_order. rewrite isort_length, seq_length. reflexivity. Qed.

Lemma sort_order_sorted rnd bars : StronglySorted (bar_before rnd bars) (sort_order rnd bars).
Proof.
  unfold sort_order.
  apply (isort_sorted _ (fun i j => (i < j < length bars)%nat)).
  - intros i j Hij. rewrite !nth_aux by lia. unfold key_leb, bar_before. cbn [fst snd]. lia.
  - intros i j Hij. rewrite !nth_aux by lia. unfold key_leb, bar_before. cbn [fst snd]. lia.
  - intros i j k. apply bar_before_trans.
  - apply (nth_sorted _ _ 0%nat). rewrite seq_length. intros i j Hij. rewrite !seq_nth; lia.
Qed.

(** The order is characterised by the standard barcode order. *)
Lemma sort_order_unique rnd bars l : StronglySorted (bar_before rnd bars) l ->
  (forall i, In i l <-> (i < length bars)%nat) -> l = sort_order rnd bars.
Proof.
  intros Hs Hi. apply (sorted_unique (bar_before rnd bars)); auto using bar_before_irrefl, sort_order_sorted.
  - intros x y z. apply bar_before_trans.
  - intros x. rewrite Hi, sort_order_lt. reflexivity.
Qed.

Lemma take_cols_err_ok A js : (forall j, In j js -> (j < ncols A)%nat) -> take_cols_err A js = Ok (take_cols A js).
Proof.
  intros H. unfold take_cols_err. replace (forallb _ js) with true; auto. symmetry. apply forallb_forall.
  intros j Hj. apply Nat.ltb_lt. auto.
Qed.

Lemma b_sort_C29 rnd b : b_flat b = false ->
  (b_prev b <> None -> ncols (b_coords b) = length (b_bars b)) ->
  exists b' order, b_sort rnd b = Ok (b', order) /\
    Permutation (seq 0 (length (b_bars b))) order /\
    StronglySorted (bar_before rnd (b_bars b)) order /\
    b_bars b' = map (fun k => nth k (b_bars b) (0, 0)) order /\
    (b_prev b <> None -> cols (b_coords b') = map (col (b_coords b)) order) /\
    (forall M, b_brk b = Some M -> exists M', b_brk b' = Some M' /\
       nrows M' = length order /\ ncols M' = length order /\
       forall i j, (i < length order)%nat -> (j < length order)%nat -> (nth j order 0 < ncols M)%nat ->
         get M' i j = get M (nth i order 0%nat) (nth j order 0%nat)) /\
    b_dim b' = b_dim b /\ b_prev b' = b_prev b /\ b_sorted b' = true /\ b_flat b' = false /\ b_wd b' = b_wd b.
Proof.
  intros Hf Hc. unfold b_sort. rewrite Hf.
  set (o := sort_order rnd (b_bars b)).
  assert (E : exists c, (match b_prev b with Some _ => take_cols_err (b_coords b) o | None => Ok (b_coords b) end) = Ok c
              /\ (b_prev b <> None -> cols c = map (col (b_coords b)) o)).
  { destruct (b_prev b) as [pb|].
    - rewrite take_cols_err_ok; [eexists; split; [reflexivity|intros _; reflexivity]|].
      intros j Hj. apply sort_order_lt in Hj. rewrite Hc by discriminate. auto.
    - eexists; split; eauto. intros X; elim X; auto. }
  destruct E as (c & -> & Hcc). cbn [bind].
  eexists _, o. split; [reflexivity|]. cbn [b_bars b_coords b_brk b_dim b_prev b_sorted b_flat b_wd].
  split; [apply sort_order_perm|]. split; [apply sort_order_sorted|]. split; [reflexivity|].
  split; auto. split; [|auto 10].
  intros M ->. eexists. split; [reflexivity|]. unfold take_cols, take_rows. cbn [nrows].
  split; [reflexivity|]. split; [unfold ncols; cbn [cols]; apply map_length|].
  intros i j Hi Hj HM. unfold get at 1. unfold col at 1. cbn [cols].
  rewrite (nth_map _ _ _ 0%nat) by auto. unfold col at 1. cbn [cols].
  rewrite (nth_map _ _ _ ([] : vec)) by auto.
  unfold vget at 1. rewrite (nth_map _ _ _ 0%nat) by auto. reflexivity.
Qed.

(** Sorting an already sorted basis changes nothing. *)
Lemma sort_order_id rnd bars :
  (forall i j, (i < j < length bars)%nat -> bar_before rnd bars i j) -> sort_order rnd bars = seq 0 (length bars).
Proof.
  intros H. symmetry. apply sort_order_unique.
  - apply (nth_sorted _ _ 0%nat). rewrite seq_length. intros i j Hij. rewrite !seq_nth by lia. apply H. lia.
  - intros i. rewrite in_seq. lia.
Qed.

Lemma map_nth_seq {A} (l : list A) d : map (fun k => nth k l d) (seq 0 (length l)) = l.
Proof.
  apply (nth_ext _ _ d d); [rewrite map_length, seq_length; auto|].
  intros n Hn. rewrite map_length, seq_length in Hn. rewrite nth_map_seq; auto.
Qed.

Lemma resort rnd bars : let bars' := map (fun k => nth k bars (0, 0)) (sort_order rnd bars) in
  sort_order rnd bars' = seq 0 (length bars').
Proof.
  intros bars'. apply sort_order_id. intros i j Hij.
  assert (L : length bars' = length bars) by (unfold bars'; rewrite map_length; apply sort_order_length).
  pose proof (sort_order_length rnd bars) as L'.
  assert (Hij' : (i < j < length (sort_order rnd bars))%nat) by (rewrite L'; lia).
  pose proof (sorted_nth _ _ 0%nat (sort_order_sorted rnd bars) i j Hij') as B.
  unfold bar_before in *. unfold bars'. rewrite !(nth_map _ _ _ 0%nat) by lia. cbn zeta in *. tauto.
Qed.

Lemma resort_map {A} rnd bars (f : nat -> A) d :
  let o := sort_order rnd bars in let bars' := map (fun k => nth k bars (0, 0)) o in
  map (fun k => nth k (map f o) d) (sort_order rnd bars') = map f o.
Proof.
  intros o bars'. unfold bars', o at 2. rewrite resort. fold o.
  rewrite map_length. rewrite <- (map_length f o). apply map_nth_seq.
Qed.

Lemma b_sort_idem rnd b b' o : wf_mat (match b_brk b with Some M => M | None => Mat 0 [] end) ->
  (forall M, b_brk b = Some M -> nrows M = length (b_bars b) /\ ncols M = length (b_bars b)) ->
  b_sort rnd b = Ok (b', o) ->
  b_sort rnd b' = Ok (b', seq 0 (length (b_bars b'))).
Proof.
  intros Hwf Hbrk. unfold b_sort at 1. destruct (b_flat b) eqn:Hf; [discriminate|].
  set (ord := sort_order rnd (b_bars b)).
  destruct (match b_prev b with Some _ => _ | None => _ end) as [c|] eqn:E; cbn [bind]; [|discriminate].
  intros X. injection X as <- _. unfold b_sort.
  cbn [b_bars b_coords b_brk b_dim b_prev b_sorted b_flat b_wd].
  change (take (0, 0) (b_bars b) ord) with (map (fun k => nth k (b_bars b) (0, 0)) ord).
  set (bars' := map (fun k => nth k (b_bars b) (0, 0)) ord).
  assert (L : length bars' = length (b_bars b)).
  { unfold bars', ord. rewrite map_length. apply sort_order_length. }
  assert (Lo : length ord = length (b_bars b)) by apply sort_order_length.
  assert (Ho : sort_order rnd bars' = seq 0 (length bars')) by apply resort.
  rewrite Ho.
  assert (C : match b_prev b with Some _ => take_cols_err c (seq 0 (length bars')) | None => Ok c end = Ok c).
  { destruct (b_prev b) as [pb|]; auto.
    unfold take_cols_err in E. destruct (forallb _ ord); [|discriminate]. injection E as <-.
    rewrite take_cols_err_ok.
    - f_equal. unfold take_cols. cbn [nrows]. f_equal. cbn [cols].
      replace (length bars') with (length (map (col (b_coords b)) ord)) by (rewrite map_length; lia).
      unfold col at 1. cbn [cols]. apply map_nth_seq.
    - intros j Hj. apply in_seq in Hj. unfold take_cols, ncols. cbn [cols]. rewrite map_length. lia. }
  rewrite C. cbn [bind]. f_equal. f_equal. f_equal.
  - unfold take. apply map_nth_seq.
  - destruct (b_brk b) as [M|]; auto. f_equal. destruct (Hbrk M eq_refl) as [H1 H2].
    unfold take_cols, take_rows. cbn [nrows cols]. f_equal; [rewrite seq_length; lia|].
    apply (nth_ext _ _ [] []); [rewrite !map_length, seq_length; lia|].
    intros k Hk. rewrite map_length, seq_length in Hk.
    rewrite (nth_map _ _ _ 0%nat) by (rewrite seq_length; auto). rewrite seq_nth by auto. cbn [plus].
    rewrite (nth_map _ _ _ 0%nat) by lia.
    unfold col at 1. cbn [cols]. rewrite (nth_map _ _ _ ([] : vec)) by (rewrite map_length; lia).
    rewrite (nth_map _ _ _ 0%nat) by lia. unfold col. cbn [cols].
    assert (Hn : (nth k ord 0 < ncols M)%nat).
    { rewrite H2. apply (sort_order_lt rnd). apply nth_In. fold ord. lia. }
    rewrite (nth_map _ _ _ ([] : vec)) by auto.
    replace (length bars') with (length (map (vget (nth (nth k ord 0%nat) (cols M) [])) ord))
      by (rewrite map_length; lia).
    unfold vget at 1. apply map_nth_seq.
Qed.

(** ** active, birth, death, changes_list *)

Lemma mask_seq_In {A} (f : A -> bool) (l : list A) d s k :
  In k (mask_filter (map f l) (seq s (length l))) <->
  (s <= k < s + length l)%nat /\ f (nth (k - s) l d) = true.
Proof.
  revert s. induction l as [|x l IH]; intros s; cbn [map length seq mask_filter].
  - simpl. lia.
  - destruct (f x) eqn:E.
    + cbn [In]. rewrite IH. split.
      * intros [<-|[H1 H2]].
        -- split; [lia|]. rewrite Nat.sub_diag. auto.
        -- split; [lia|]. replace (k - s)%nat with (S (k - S s))%nat by lia. auto.
      * intros [H1 H2]. destruct (Nat.eq_dec s k) as [|Hn]; auto. right. split; [lia|].
        replace (k - s)%nat with (S (k - S s))%nat in H2 by lia. auto.
    + rewrite IH. split.
      * intros [H1 H2]. split; [lia|]. replace (k - s)%nat with (S (k - S s))%nat by lia. auto.
      * intros [H1 H2]. destruct (Nat.eq_dec s k) as [->|Hn].
        -- rewrite Nat.sub_diag in H2. simpl in H2. congruence.
        -- split; [lia|]. replace (k - s)%nat with (S (k - S s))%nat in H2 by lia. auto.
Qed.

Lemma mask_filter_sorted {A} (R : A -> A -> Prop) m l : StronglySorted R l -> StronglySorted R (mask_filter m l).
Proof.
  intros H. revert m. induction H as [|x l Hs IH Hx]; intros [|[|] m]; simpl; try constructor; auto.
  rewrite Forall_forall in *. intros y Hy. apply Hx. clear -Hy. revert m Hy.
  induction l as [|z l IH]; intros [|[|] m]; simpl; intuition eauto.
Qed.

Lemma select_spec b f l : select b f = Ok l ->
  StronglySorted lt l /\ forall k, In k l <-> (k < length (b_bars b))%nat /\ f (nth k (b_bars b) (0, 0)) = true.
Proof.
  unfold select. destruct (b_flat b); [discriminate|].
  destruct (Nat.eqb_spec (b_dim b) (length (b_bars b))) as [E|]; [|discriminate]. cbn [negb].
  intros H. injection H as <-. split.
  - apply mask_filter_sorted. apply seq_sorted.
  - intros k. rewrite E. rewrite (mask_seq_In f _ (0, 0)). rewrite Nat.sub_0_r. cbn [plus]. intuition lia.
Qed.

Lemma select_total b f : b_flat b = false -> b_dim b = length (b_bars b) -> exists l, select b f = Ok l.
Proof. intros H1 H2. unfold select. rewrite H1, H2, Nat.eqb_refl. cbn [negb]. eauto. Qed.

Lemma changes_In b x : In x (changes_list b) <-> exists k, (k < length (b_bars b))%nat /\
  (x = fst (nth k (b_bars b) (0, 0)) \/ x = snd (nth k (b_bars b) (0, 0))).
Proof.
  unfold changes_list. rewrite zunique_In, in_flat_map. split.
  - intros (y & Hy & Hx). apply In_nth with (d := (0, 0)) in Hy. destruct Hy as (k & Hk & <-).
    exists k. split; auto. simpl in Hx. intuition.
  - intros (k & Hk & Hx). exists (nth k (b_bars b) (0, 0)). split; [apply nth_In; auto|]. simpl. intuition.
Qed.

Lemma active_constant b r1 r2 : r1 <= r2 -> (forall x, In x (changes_list b) -> ~ (r1 < x <= r2)) ->
  active b r1 = active b r2.
Proof.
  intros Hr H. unfold active, select. destruct (b_flat b); auto. destruct (negb _); auto. f_equal. f_equal.
  apply map_ext_in. intros x Hx. apply In_nth with (d := (0, 0)) in Hx. destruct Hx as (k & Hk & <-).
  assert (H1 := H (fst (nth k (b_bars b) (0, 0)))). assert (H2 := H (snd (nth k (b_bars b) (0, 0)))).
  rewrite !changes_In in *. specialize (H1 ltac:(eauto)). specialize (H2 ltac:(eauto)). lia.
Qed.

Lemma C30_aux b : b_flat b = false -> b_dim b = length (b_bars b) ->
  (forall r, exists l, active b r = Ok l /\ StronglySorted lt l /\
     forall k, In k l <-> (k < length (b_bars b))%nat /\ fst (nth k (b_bars b) (0, 0)) <= r < snd (nth k (b_bars b) (0, 0))) /\
  (forall r, exists l, birth b r = Ok l /\ StronglySorted lt l /\
     forall k, In k l <-> (k < length (b_bars b))%nat /\ fst (nth k (b_bars b) (0, 0)) = r) /\
  (forall r, exists l, death b r = Ok l /\ StronglySorted lt l /\
     forall k, In k l <-> (k < length (b_bars b))%nat /\ snd (nth k (b_bars b) (0, 0)) = r) /\
  (StronglySorted Z.lt (changes_list b) /\
     forall x, In x (changes_list b) <-> exists k, (k < length (b_bars b))%nat /\
       (x = fst (nth k (b_bars b) (0, 0)) \/ x = snd (nth k (b_bars b) (0, 0)))) /\
  (forall r1 r2, r1 <= r2 -> (forall x, In x (changes_list b) -> ~ (r1 < x <= r2)) -> active b r1 = active b r2).
Proof.
  intros Hf Hd.
  split; [|split; [|split; [|split]]].
  - intros r. destruct (select_total b (fun x => (fst x <=? r) && (r <? snd x)) Hf Hd) as [l E].
    exists l. split; [exact E|]. apply select_spec in E. destruct E as [E1 E2]. split; auto.
    intros k. rewrite E2. intuition lia.
  - intros r. destruct (select_total b (fun x => fst x =? r) Hf Hd) as [l E].
    exists l. split; [exact E|]. apply select_spec in E. destruct E as [E1 E2]. split; auto.
    intros k. rewrite E2. intuition lia.
  - intros r. destruct (select_total b (fun x => snd x =? r) Hf Hd) as [l E].
    exists l. split; [exact E|]. apply select_spec in E. destruct E as [E1 E2]. split; auto.
    intros k. rewrite E2. intuition lia.
  - split; [apply zunique_sorted|apply changes_In].
  - intros r1 r2. apply active_constant.
Qed.

(** ** update_broken *)

Lemma Zsum_nth_list (f : nat -> Z) l : Zsum (length l) (fun k => f (nth k l 0%nat)) =
  fold_right (fun k s => f k + s) 0 l.
Proof.
  induction l as [|x l IH] using rev_ind; [reflexivity|].
  rewrite app_length. cbn [length]. rewrite Nat.add_1_r. cbn [Zsum].
  rewrite app_nth2, Nat.sub_diag by lia. cbn [nth].
  rewrite (Zsum_ext _ _ (fun k => f (nth k l 0%nat))); [|intros k Hk; rewrite app_nth1; auto].
  rewrite IH. clear IH. induction l as [|y l IH]; simpl; lia.
Qed.

Lemma fold_sorted_sum (f : nat -> Z) n l : StronglySorted lt l -> (forall k, In k l -> (k < n)%nat) ->
  fold_right (fun k s => f k + s) 0 l = Zsum n (fun k => if memn k l then f k else 0).
Proof.
  revert l. induction n as [|n IH]; intros l Hs Hl.
  - destruct l as [|x l]; auto. specialize (Hl x (or_introl eq_refl)). lia.
  - cbn [Zsum]. destruct (memn n l) eqn:E.
    + apply memn_In in E. apply in_split in E. destruct E as (l1 & l2 & ->).
      assert (l2 = []).
      { destruct l2 as [|y l2]; auto. exfalso.
        pose proof (sorted_nth _ _ 0%nat Hs (length l1) (S (length l1))) as H.
        rewrite !app_nth2 in H by lia. rewrite Nat.sub_diag in H.
        replace (S (length l1) - length l1)%nat with 1%nat in H by lia. cbn in H.
        rewrite app_length in H. simpl in H. specialize (H ltac:(lia)).
        specialize (Hl y). rewrite in_app_iff in Hl. simpl in Hl. specialize (Hl ltac:(auto)). lia. }
      subst l2. rewrite fold_right_app. cbn [fold_right].
      rewrite (Zsum_ext _ _ (fun k => if memn k l1 then f k else 0)).
      * rewrite <- IH.
        -- rewrite Z.add_0_r. clear. induction l1 as [|y l1 IH1]; simpl; lia.
        -- apply (nth_sorted _ _ 0%nat). intros i j Hij. pose proof (sorted_nth _ _ 0%nat Hs i j) as H.
           rewrite !app_nth1 in H by lia. apply H. rewrite app_length. lia.
        -- intros k Hk. apply In_nth with (d := 0%nat) in Hk. destruct Hk as (a & Ha & <-).
           pose proof (sorted_nth _ _ 0%nat Hs a (length l1)) as H.
           rewrite app_nth1 in H by lia. rewrite app_nth2, Nat.sub_diag in H by lia. apply H.
           rewrite app_length. simpl. lia.
      * intros k Hk. unfold memn. rewrite existsb_app. cbn. destruct (Nat.eqb_spec k n); [lia|].
        rewrite orb_false_r. reflexivity.
    + rewrite IH, Z.add_0_r; auto. intros k Hk. specialize (Hl k Hk).
      destruct (Nat.eq_dec k n) as [->|]; [|lia]. apply memn_In in Hk. congruence.
Qed.

Lemma C31_aux b M A r p : b_flat b = false -> b_dim b = length (b_bars b) -> b_brk b = Some M ->
  nrows M = b_dim b -> nrows A = b_dim b ->
  let dies k := (k < b_dim b)%nat /\ snd (nth k (b_bars b) (0, 0)) = r in
  ((forall k, ~ dies k) -> update_broken b A r p = Ok A) /\
  ((exists k, dies k) -> exists A', update_broken b A r p = Ok A' /\ nrows A' = nrows A /\ ncols A' = ncols A /\
     forall i j, (i < nrows A)%nat -> (j < ncols A)%nat ->
       get A' i j =
         ((if snd (nth i (b_bars b) (0, 0)) =? r then 0 else get A i j)
          + Zsum (b_dim b) (fun k => if snd (nth k (b_bars b) (0, 0)) =? r then get M i k * get A k j else 0)) mod p).
Proof.
  intros Hf Hd Hb HM HA dies. unfold update_broken.
  destruct (select_total b (fun x => snd x =? r) Hf Hd) as [l E]. unfold death. rewrite E. cbn [bind].
  apply select_spec in E. destruct E as [E1 E2].
  assert (Hl : forall k, In k l <-> dies k).
  { intros k. rewrite E2. unfold dies. rewrite Hd. split; intros [? ?]; split; auto; lia. }
  split.
  - intros H. destruct l as [|k l]; [reflexivity|]. elim (H k). apply Hl. left; auto.
  - intros [k Hk]. destruct (Nat.ltb_spec 0 (length l)) as [Hp|Hp].
    2:{ apply Hl in Hk. destruct l; [destruct Hk|simpl in Hp; lia]. }
    rewrite Hb. replace (Nat.eqb (nrows A) (nrows M)) with true by (symmetry; apply Nat.eqb_eq; lia). cbn [negb].
    eexists. split; [reflexivity|]. split; [reflexivity|]. split; [unfold ncols; cbn [cols]; apply map_length|].
    intros i j Hi Hj. unfold get at 1. unfold col at 1. cbn [cols]. rewrite (nth_map _ _ _ ([] : vec)) by auto.
    unfold vget at 1. rewrite nth_map_seq by auto. f_equal. f_equal.
    + assert (Hm : memn i l = (snd (nth i (b_bars b) (0, 0)) =? r)).
      { apply eq_iff_eq_true. rewrite memn_In, Hl. unfold dies. lia. }
      rewrite Hm. reflexivity.
    + fold (col A j). rewrite (Zsum_nth_list (fun k => get M i k * vget (col A j) k)).
      rewrite (fold_sorted_sum _ (b_dim b)); auto.
      * apply Zsum_ext. intros x Hx.
        assert (Hm : memn x l = (snd (nth x (b_bars b) (0, 0)) =? r)).
        { apply eq_iff_eq_true. rewrite memn_In, Hl. unfold dies. lia. }
        rewrite Hm. reflexivity.
      * intros x Hx. apply Hl in Hx. apply Hx.
Qed.
