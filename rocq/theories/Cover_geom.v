(** * Geometry of the cubical cover *)
From Verif Require Import Base ListX PH_model Simp_model Spec_Simp Simp_lists Cover_model Spec_Cover Cover_grid Cover_nerve.
From Coq Require Import QArith Qround Qabs Lqa Sorted.
Local Open Scope Q_scope.

Ltac qlra := unfold Qdiv in *; change (/ 2) with (1 # 2) in *; lra.

Lemma qmin_spec x y : (qmin x y = x /\ x <= y) \/ (qmin x y = y /\ y < x).
Proof.
  unfold qmin. destruct (Qle_bool x y) eqn:E; [left|right]; split; auto; [apply Qle_bool_iff; auto|].
  apply Qnot_le_lt. intros H. apply Qle_bool_iff in H. congruence.
Qed.

Lemma qmax_spec x y : (qmax x y = y /\ x <= y) \/ (qmax x y = x /\ y < x).
Proof.
  unfold qmax. destruct (Qle_bool x y) eqn:E; [left|right]; split; auto; [apply Qle_bool_iff; auto|].
  apply Qnot_le_lt. intros H. apply Qle_bool_iff in H. congruence.
Qed.

Lemma fold_min l : forall x, In (fold_left qmin l x) (x :: l) /\ forall y, In y (x :: l) -> fold_left qmin l x <= y.
Proof.
  induction l as [|z l IH]; intros x; cbn [fold_left].
  - split; [simpl; auto|]. intros y [<-|[]]. lra.
  - destruct (IH (qmin x z)) as [H1 H2]. destruct (qmin_spec x z) as [[E Hl]|[E Hl]]; rewrite E in *.
    + split; [destruct H1; simpl; auto|]. intros y [<-|[<-|Hy]]; [apply H2; simpl; auto| |apply H2; simpl; auto].
      specialize (H2 x (or_introl eq_refl)). lra.
    + split; [destruct H1; simpl; auto|]. intros y [<-|[<-|Hy]]; [|apply H2; simpl; auto|apply H2; simpl; auto].
      specialize (H2 z (or_introl eq_refl)). lra.
Qed.

Lemma fold_max l : forall x, In (fold_left qmax l x) (x :: l) /\ forall y, In y (x :: l) -> y <= fold_left qmax l x.
Proof.
  induction l as [|z l IH]; intros x; cbn [fold_left].
  - split; [simpl; auto|]. intros y [<-|[]]. lra.
  - destruct (IH (qmax x z)) as [H1 H2]. destruct (qmax_spec x z) as [[E Hl]|[E Hl]]; rewrite E in *.
    + split; [destruct H1; simpl; auto|]. intros y [<-|[<-|Hy]]; [|apply H2; simpl; auto|apply H2; simpl; auto].
      specialize (H2 z (or_introl eq_refl)). lra.
    + split; [destruct H1; simpl; auto|]. intros y [<-|[<-|Hy]]; [apply H2; simpl; auto| |apply H2; simpl; auto].
      specialize (H2 x (or_introl eq_refl)). lra.
Qed.

Lemma amin_ok l : l <> [] -> exists m, amin l = Ok m /\ In m l /\ forall y, In y l -> m <= y.
Proof. destruct l as [|x l]; [congruence|]. intros _. eexists. split; [reflexivity|]. apply fold_min. Qed.

Lemma amax_ok l : l <> [] -> exists m, amax l = Ok m /\ In m l /\ forall y, In y l -> y <= m.
Proof. destruct l as [|x l]; [congruence|]. intros _. eexists. split; [reflexivity|]. apply fold_max. Qed.

Lemma mapM_seq {B} (f : nat -> res B) (P : nat -> B -> Prop) dflt n : (forall d, (d < n)%nat -> exists y, f d = Ok y /\ P d y) ->
  exists ys, mapM f (seq 0 n) = Ok ys /\ length ys = n /\ forall d, (d < n)%nat -> P d (nth d ys dflt).
Proof.
  intros H.
  assert (G : forall k s, (s + k <= n)%nat -> exists ys, mapM f (seq s k) = Ok ys /\ length ys = k /\ forall d, (d < k)%nat -> P (s + d)%nat (nth d ys dflt)).
  { induction k as [|k IH]; intros s Hs.
    - exists []. split; [reflexivity|]. split; auto. intros; lia.
    - destruct (H s) as (y & Ey & Py); [lia|]. destruct (IH (S s)) as (ys & E & Hl & HP); [lia|].
      exists (y :: ys). cbn [seq mapM]. rewrite Ey. cbn [bind]. rewrite E. cbn [bind]. split; auto. split; [simpl; auto|].
      intros [|d] Hd; simpl; [rewrite Nat.add_0_r; auto|]. replace (s + S d)%nat with (S s + d)%nat by lia. apply HP. lia. }
  apply (G n 0%nat). lia.
Qed.

Lemma corners_ok dim pc : pc <> [] -> exists mins maxs, corners_hypercube dim pc = Ok (mins, maxs) /\
  length mins = dim /\ length maxs = dim /\
  (forall d, (d < dim)%nat -> least_coord d pc (nth d mins 0)) /\ (forall d, (d < dim)%nat -> largest_coord d pc (nth d maxs 0)).
Proof.
  intros Hne. unfold corners_hypercube.
  destruct (mapM_seq (fun d => amin (map (coord d) pc)) (fun d m => least_coord d pc m) 0 dim) as (mins & E1 & L1 & P1).
  { intros d _. destruct (amin_ok (map (coord d) pc)) as (m & E & Hin & Hm); [destruct pc; simpl; congruence|].
    exists m. split; auto. apply in_map_iff in Hin. destruct Hin as (pt & Ept & Hpt). split.
    - exists pt. split; auto. unfold coord in Ept. rewrite Ept. reflexivity.
    - intros q Hq. apply Hm. apply (in_map (coord d)) in Hq. auto. }
  destruct (mapM_seq (fun d => amax (map (coord d) pc)) (fun d m => largest_coord d pc m) 0 dim) as (maxs & E2 & L2 & P2).
  { intros d _. destruct (amax_ok (map (coord d) pc)) as (m & E & Hin & Hm); [destruct pc; simpl; congruence|].
    exists m. split; auto. apply in_map_iff in Hin. destruct Hin as (pt & Ept & Hpt). split.
    - exists pt. split; auto. unfold coord in Ept. rewrite Ept. reflexivity.
    - intros q Hq. apply Hm. apply (in_map (coord d)) in Hq. auto. }
  rewrite E1. cbn [bind]. rewrite E2. cbn [bind]. exists mins, maxs. auto.
Qed.

Lemma largest_unique d pc M M' : largest_coord d pc M -> largest_coord d pc M' -> M == M'.
Proof.
  intros [(p & Hp & Ep) H] [(q & Hq & Eq) H']. specialize (H q Hq). specialize (H' p Hp). lra.
Qed.

Lemma least_largest d pc m M : least_coord d pc m -> largest_coord d pc M -> m <= M.
Proof. intros [(p & Hp & Ep) H] [(q & Hq & Eq) H']. specialize (H q Hq). lra. Qed.

Lemma zipw_nth {A B C} (f : A -> B -> C) da db dc : forall u v d, (d < length u)%nat -> (d < length v)%nat ->
  nth d (zipw f u v) dc = f (nth d u da) (nth d v db).
Proof. induction u as [|a u IH]; intros [|b v] [|d] H1 H2; simpl in *; try lia; auto. apply IH; lia. Qed.

Lemma zipw_length {A B C} (f : A -> B -> C) : forall u v, length (zipw f u v) = Nat.min (length u) (length v).
Proof. induction u; intros [|b v]; simpl; auto. Qed.

Section Grid.
Variables (max_div : Z) (dim : nat) (pc : list point).
Hypothesis Hdiv : (1 <= max_div)%Z.

Lemma lengths_facts mins maxs : length mins = dim -> length maxs = dim ->
  (forall d, (d < dim)%nat -> least_coord d pc (nth d mins 0)) -> (forall d, (d < dim)%nat -> largest_coord d pc (nth d maxs 0)) ->
  let lengths := zipw (fun M m => M - m) maxs mins in
  length lengths = dim /\ forall d, (d < dim)%nat -> nth d lengths 0 = nth d maxs 0 - nth d mins 0 /\ 0 <= nth d lengths 0.
Proof.
  intros L1 L2 H1 H2 lengths. split; [unfold lengths; rewrite zipw_length; lia|].
  intros d Hd. unfold lengths. rewrite (zipw_nth _ 0 0) by lia. split; auto.
  pose proof (least_largest d pc _ _ (H1 d Hd) (H2 d Hd)). lra.
Qed.

Lemma grid_ok : spread dim pc -> exists mins maxs side div, corners_hypercube dim pc = Ok (mins, maxs) /\
  side_and_div max_div mins maxs = Ok (side, div) /\ grid_of max_div dim pc mins side div.
Proof.
  intros (d0 & p0 & q0 & Hd0 & Hp0 & Hq0 & Hlt).
  destruct (corners_ok dim pc) as (mins & maxs & E & L1 & L2 & H1 & H2); [intros ->; destruct Hp0|].
  exists mins, maxs. destruct (lengths_facts mins maxs L1 L2 H1 H2) as [LL HL].
  set (lengths := zipw (fun M m => M - m) maxs mins) in *.
  unfold side_and_div. fold lengths.
  destruct (amax_ok (map Qabs lengths)) as (L & EL & HinL & HmaxL).
  { destruct lengths; simpl in *; [lia|congruence]. }
  rewrite EL. cbn [bind].
  assert (Hle : forall d, (d < dim)%nat -> nth d maxs 0 - nth d mins 0 <= L).
  { intros d Hd. destruct (HL d Hd) as [Ed H0]. rewrite <- Ed. rewrite <- (Qabs_pos _ H0) at 1. apply HmaxL.
    apply in_map. apply nth_In. lia. }
  assert (HLpos : 0 < L).
  { specialize (Hle d0 Hd0). destruct (H1 d0 Hd0) as [_ G1]. destruct (H2 d0 Hd0) as [_ G2]. specialize (G1 p0 Hp0). specialize (G2 q0 Hq0). lra. }
  replace (Qeq_bool L 0) with false by (symmetry; apply not_true_iff_false; rewrite Qeq_bool_iff; lra).
  replace (max_div =? 0)%Z with false by lia.
  assert (Hmd : 0 < inject_Z max_div) by (change 0 with (inject_Z 0); rewrite <- Zlt_Qlt; lia).
  set (side := L / inject_Z max_div).
  assert (Hside : 0 < side) by (apply Qlt_shift_div_l; lra).
  assert (Esm : side * inject_Z max_div == L) by (unfold side; field; lra).
  exists side. eexists. split; auto. split; [reflexivity|]. constructor; auto.
  - rewrite map_length. auto.
  - apply in_map_iff in HinL. destruct HinL as (l & El & Hl). destruct (In_nth _ _ 0 Hl) as (d & Hd & En).
    rewrite LL in Hd. destruct (HL d Hd) as [Ed H0]. exists d, (nth d maxs 0). split; auto. split; auto.
    rewrite Esm, <- El, <- En, Qabs_pos by auto. rewrite Ed. reflexivity.
  - intros d M Hd HM. pose proof (largest_unique _ _ _ _ HM (H2 d Hd)) as EM. specialize (Hle d Hd). lra.
  - intros d M Hd HM. rewrite (nth_map _ _ _ 0) by lia. destruct (HL d Hd) as [Ed H0]. rewrite Ed.
    pose proof (largest_unique _ _ _ _ HM (H2 d Hd)) as EM. set (x := nth d maxs 0 - nth d mins 0) in *.
    assert (Ex : M - nth d mins 0 == x) by (unfold x; lra).
    assert (Exs : side * (x / side) == x) by (field; lra).
    pose proof (Qle_ceiling (x / side)) as G1. pose proof (Qceiling_lt (x / side)) as G2.
    rewrite Ex. split.
    + assert (side * (x / side) <= side * inject_Z (Qceiling (x / side))) by (apply Qmult_le_l; auto). lra.
    + assert (side * inject_Z (Qceiling (x / side) - 1) < side * (x / side)) by (apply Qmult_lt_l; auto). lra.
Qed.
End Grid.

(** ** Membership *)
Lemma in_hypercube_ok side overlap mins a pt : length mins = length a ->
  length pt = length a ->
  in_hypercube (lower_corner (fun x => x) side overlap mins a) (upper_corner (fun x => x) side overlap mins a) pt = true <->
  in_cube mins side overlap a pt.
Proof.
  intros Hm Hp. unfold in_cube, lower_corner, upper_corner.
  set (dd := overlap / 2 + side / 2).
  transitivity (forall d, (d < length a)%nat ->
     let lo := nth d mins 0 + side * inject_Z (nth d a 0%Z) in lo - overlap / 2 <= nth d pt 0 <= lo + side + overlap / 2).
  2:{ split; [auto|intros [_ H]; auto]. }
  revert a pt Hm Hp. induction mins as [|m mins IH]; intros [|x a] [|y pt] Hm Hp; simpl in Hm, Hp; try lia.
  - simpl. split; auto. intros; lia.
  - cbn [zipw in_hypercube]. specialize (IH a pt ltac:(lia) ltac:(lia)).
    destruct (Qle_bool _ y) eqn:E1; cbn [negb].
    + apply Qle_bool_iff in E1. destruct (Qle_bool y _) eqn:E2; cbn [negb].
      * apply Qle_bool_iff in E2. rewrite IH. split; intros H.
        -- intros [|d] Hd; cbn [nth length] in *; [unfold dd in *; split; qlra|apply H; lia].
        -- intros d Hd. apply (H (S d)). simpl. lia.
      * split; [congruence|]. intros H. exfalso. specialize (H 0%nat ltac:(simpl; lia)). cbn [nth] in H.
        apply not_true_iff_false in E2. apply E2. apply Qle_bool_iff. unfold dd. qlra.
    + split; [congruence|]. intros H. exfalso. specialize (H 0%nat ltac:(simpl; lia)). cbn [nth] in H.
      apply not_true_iff_false in E1. apply E1. apply Qle_bool_iff. unfold dd. qlra.
Qed.

Lemma divide_ok cast side overlap mins div pc k : forall pos cur, (cur + Z.of_nat k)%Z = grid_size div ->
  ((0 < k)%nat -> in_grid div pos /\ grid_index div pos = cur) ->
  let l := divide cast side overlap mins div pc k pos in
  length l = k /\ forall i, (i < k)%nat -> exists a, in_grid div a /\ grid_index div a = (cur + Z.of_nat i)%Z /\
    nth i l [] = filter (fun ip => in_hypercube (lower_corner cast side overlap mins a) (upper_corner cast side overlap mins a) (snd ip))
                   (combine (seq 0 (length pc)) pc).
Proof.
  induction k as [|k IH]; intros pos cur Hk Hpos; cbn [divide].
  - split; auto. intros; lia.
  - destruct (Hpos ltac:(lia)) as [Hg Hi].
    destruct (IH (next_hypercube pos div) (cur + 1)%Z) as [L H]; [lia| |].
    { intros Hk'. destruct (next_ok _ _ Hg) as [G1 G2]. split; auto. rewrite G2, Hi. lia. }
    split; [cbn [length]; f_equal; exact L|]. intros [|i] Hi'.
    + exists pos. split; auto. split; [lia|]. reflexivity.
    + destruct (H i ltac:(lia)) as (a & G1 & G2 & G3). exists a. split; auto. split; [lia|]. exact G3.
Qed.

Lemma numbered (f : point -> bool) pc :
  let l := filter (fun ip : nat * point => f (snd ip)) (combine (seq 0 (length pc)) pc) in
  increasing (map fst l) /\ (forall j, In j (map fst l) <-> (j < length pc)%nat /\ f (nth j pc []) = true) /\
  map snd l = map (fun j => nth j pc []) (map fst l).
Proof.
  assert (G : forall s, let l := filter (fun ip : nat * point => f (snd ip)) (combine (seq s (length pc)) pc) in
    increasing (map fst l) /\ (forall j, In j (map fst l) <-> (s <= j < s + length pc)%nat /\ f (nth (j - s) pc []) = true) /\
    map snd l = map (fun j => nth (j - s) pc []) (map fst l)).
  { induction pc as [|pt pc IH]; intros s; cbn [length seq combine filter].
    - split; [constructor|]. split; [|reflexivity]. intros j. split; [intros []|]. intros; lia.
    - destruct (IH (S s)) as (H1 & H2 & H3). cbn [snd].
      set (l := filter (fun ip : nat * point => f (snd ip)) (combine (seq (S s) (length pc)) pc)) in *.
      assert (Hsh : map (fun j => nth (j - S s) pc []) (map fst l) = map (fun j => nth (j - s) (pt :: pc) []) (map fst l)).
      { apply map_ext_in. intros j Hj. apply H2 in Hj. replace (j - s)%nat with (S (j - S s)) by lia. reflexivity. }
      assert (Hin : forall j, In j (map fst l) <-> (S s <= j < s + S (length pc))%nat /\ f (nth (j - s) (pt :: pc) []) = true).
      { intros j. rewrite H2. split; intros [Hj Hf]; (split; [lia|]).
        - replace (j - s)%nat with (S (j - S s)) by lia. auto.
        - replace (j - s)%nat with (S (j - S s)) in Hf by lia. auto. }
      destruct (f pt) eqn:E; cbn [map fst snd].
      + split; [|split].
        * constructor; auto. apply Forall_forall. intros j Hj. apply Hin in Hj. lia.
        * intros j. cbn [In]. rewrite Hin. split.
          -- intros [<-|[Hj Hf]]; [|split; auto; lia]. rewrite Nat.sub_diag. split; [lia|]. auto.
          -- intros [Hj Hf]. destruct (Nat.eq_dec j s); [auto|right; split; auto; lia].
        * rewrite Nat.sub_diag. cbn [nth]. f_equal. rewrite H3. exact Hsh.
      + split; auto. split.
        * intros j. rewrite Hin. split; intros [Hj Hf]; (split; [|auto]); [lia|]. destruct (Nat.eq_dec j s); [|lia].
          subst. rewrite Nat.sub_diag in Hf. simpl in Hf. congruence.
        * rewrite H3. exact Hsh. }
  destruct (G 0%nat) as (H1 & H2 & H3). split; auto. split.
  - intros j. rewrite H2, Nat.sub_0_r. simpl. intuition lia.
  - rewrite H3. apply map_ext. intros j. rewrite Nat.sub_0_r. reflexivity.
Qed.

Lemma filter_increasing (f : nat -> bool) l : increasing l -> increasing (filter f l).
Proof.
  unfold increasing. induction 1 as [|x l H IH Hx]; simpl; [constructor|]. destruct (f x); auto. constructor; auto.
  apply Forall_forall. intros y Hy. apply filter_In in Hy. rewrite Forall_forall in Hx. apply Hx. tauto.
Qed.

(** ** Intersections *)
Lemma intersection_ok IN s : s <> [] -> (forall v, In v s -> (v < length IN)%nat) -> (forall v, In v s -> increasing (nth v IN [])) ->
  exists l, intersection_covers IN s = Ok l /\ increasing l /\ forall q, In q l <-> forall v, In v s -> In q (nth v IN []).
Proof.
  destruct s as [|v vs]; [congruence|]. intros _ Hlt Hinc. cbn [intersection_covers].
  rewrite (nth_err_nth _ _ []) by (apply Hlt; simpl; auto). cbn [bind].
  rewrite (foldM_pure _ (fun l w => filter (fun i => memn i (nth w IN [])) l)).
  2:{ intros l w Hw. rewrite (nth_err_nth _ _ []) by (apply Hlt; simpl; auto). reflexivity. }
  eexists. split; [reflexivity|].
  assert (G : forall l0, increasing l0 -> let l := fold_left (fun l w => filter (fun i => memn i (nth w IN [])) l) vs l0 in
     increasing l /\ forall q, In q l <-> In q l0 /\ forall w, In w vs -> In q (nth w IN [])).
  { clear. induction vs as [|w vs IH]; intros l0 Hl0; cbn [fold_left].
    - split; auto. intros q. split; [intros; split; auto; intros _ []|tauto].
    - destruct (IH (filter (fun i => memn i (nth w IN [])) l0)) as [H1 H2]; [apply filter_increasing; auto|].
      split; auto. intros q. rewrite H2, filter_In, (memn_In q). split.
      + intros [[G1 G2] G3]. split; auto. intros u [<-|Hu]; auto.
      + intros [G1 G2]. split; [split|]; auto; intros; apply G2; simpl; auto. }
  destruct (G (nth v IN [])) as [H1 H2]; [apply Hinc; simpl; auto|]. split; auto. intros q. rewrite H2. split.
  - intros [G1 G2] w [<-|Hw]; auto.
  - intros H. split; [apply H; simpl; auto|]. intros w Hw. apply H. simpl. auto.
Qed.

Lemma mapM_each {A B} (f : A -> res B) (P : A -> B -> Prop) da db l : (forall x, In x l -> exists y, f x = Ok y /\ P x y) ->
  exists ys, mapM f l = Ok ys /\ length ys = length l /\ forall i, (i < length l)%nat -> P (nth i l da) (nth i ys db).
Proof.
  induction l as [|x l IH]; intros H; cbn [mapM].
  - exists []. split; auto. split; auto. simpl. intros; lia.
  - destruct (H x (or_introl eq_refl)) as (y & E & Hy). destruct IH as (ys & E' & Hl & HP); [intros; apply H; simpl; auto|].
    rewrite E. cbn [bind]. rewrite E'. exists (y :: ys). split; [reflexivity|]. split; [simpl; auto|].
    intros [|i] Hi; simpl in *; auto. apply HP. lia.
Qed.

(** What one level of the nerve contains. *)
Definition level_data (pc : list point) (IN0 : list (list nat)) (simplices : list simplex) (ptsd : list (list point)) (INd : list (list nat)) : Prop :=
  length ptsd = length simplices /\ length INd = length simplices /\
  forall j, (j < length simplices)%nat -> let s := nth j simplices [] in
    increasing (nth j INd []) /\
    (forall q, In q (nth j INd []) <-> (forall v, In v s -> In q (nth v IN0 []))) /\
    nth j ptsd [] = map (fun q => nth q pc []) (nth j INd []).

Lemma cover_level_ok pc IN simplices :
  (forall s, In s simplices -> s <> [] /\ forall v, In v s -> (v < length IN)%nat) ->
  (forall v, (v < length IN)%nat -> increasing (nth v IN []) /\ forall q, In q (nth v IN []) -> (q < length pc)%nat) ->
  exists r, cover_level pc IN simplices = Ok r /\ level_data pc IN simplices (fst r) (snd r).
Proof.
  intros Hs HIN. unfold cover_level.
  destruct (mapM_each (intersection_covers IN) (fun s l => increasing l /\ forall q, In q l <-> forall v, In v s -> In q (nth v IN [])) [] [] simplices)
    as (ins & E & Hl & HP).
  { intros s Hin. destruct (Hs s Hin) as [Hne Hv]. destruct (intersection_ok IN s) as (l & E & G); auto; [|exists l; auto].
    intros v Hvs. apply HIN. auto. }
  rewrite E. cbn [bind].
  destruct (mapM_each (take_err pc) (fun l pts => pts = map (fun q => nth q pc []) l) [] [] ins) as (pts & E' & Hl' & HP').
  { intros l Hlin. eexists. split; [|reflexivity]. apply take_err_pure. intros q Hq.
    destruct (In_nth _ _ [] Hlin) as (j & Hj & El). rewrite Hl in Hj. destruct (HP j Hj) as [_ G]. rewrite El in G.
    assert (Hsj : In (nth j simplices []) simplices) by (apply nth_In; auto).
    destruct (Hs _ Hsj) as [Hne Hv]. destruct (nth j simplices []) as [|v vs] eqn:Es; [congruence|].
    apply (proj2 (HIN v (Hv v (or_introl eq_refl)))). apply G; simpl; auto. }
  rewrite E'. cbn [bind]. eexists. split; [reflexivity|]. cbn [fst snd]. split; [lia|]. split; auto.
  intros j Hj s. destruct (HP j Hj) as [G1 G2]. split; auto. split; [exact G2|]. apply HP'. lia.
Qed.

(** ** The whole cover *)
Record cover_data (max_div : Z) (overlap : Q) (dim : nat) (pc : list point) (mins : list Q) (side : Q) (div : list Z)
    (pts : list (list (list point))) (IN : list (list (list nat))) (n : nat) (Cs : list (list simplex)) : Prop := {
  cd_grid : grid_of max_div dim pc mins side div;
  cd_n : n = Z.to_nat (grid_size div);
  cd_nerve : nerve_hypercube_cover div = Ok (n, Cs);
  cd_lenC : length Cs = (2 ^ dim)%nat;
  cd_levels : forall d, (1 <= d <= 2 ^ dim)%nat -> NoDup (level n Cs d) /\ forall s, In s (level n Cs d) <-> clique n (adjacent div) d s;
  cd_len0 : length (nth 0 IN []) = n;
  cd_lenp : length (nth 0 pts []) = n;
  cd_lens : length IN = S (length Cs) /\ length pts = S (length Cs);
  cd_in : forall a, in_grid div a -> let i := Z.to_nat (grid_index div a) in
    increasing (nth i (nth 0 IN []) []) /\
    (forall j, In j (nth i (nth 0 IN []) []) <-> (j < length pc)%nat /\ in_cube mins side overlap a (nth j pc [])) /\
    nth i (nth 0 pts []) [] = map (fun q => nth q pc []) (nth i (nth 0 IN []) []);
  cd_inter : forall d, (1 <= d <= length Cs)%nat -> level_data pc (nth 0 IN []) (level n Cs d) (nth d pts []) (nth d IN [])
}.

Lemma div_nonneg max_div dim pc mins side div : grid_of max_div dim pc mins side div -> Forall (fun d => (0 <= d)%Z) div.
Proof.
  intros G. apply Forall_forall. intros x Hx. destruct (In_nth _ _ 0%Z Hx) as (d & Hd & E). rewrite (go_div _ _ _ _ _ _ G) in Hd.
  destruct (go_least _ _ _ _ _ _ G d Hd) as [(p & Hp & Ep) Hmin].
  destruct (amax_ok (map (coord d) pc)) as (M & _ & HinM & HM); [destruct pc; [destruct Hp|simpl; congruence]|].
  assert (HL : largest_coord d pc M).
  { split.
    - apply in_map_iff in HinM. destruct HinM as (q & <- & Hq). exists q. split; auto. reflexivity.
    - intros q Hq. apply HM. apply (in_map (coord d)) in Hq. auto. }
  destruct (go_fits _ _ _ _ _ _ G d M Hd HL) as [H1 _]. rewrite E in H1.
  assert (H0 : nth d mins 0 <= M) by (eapply least_largest; eauto; apply (go_least _ _ _ _ _ _ G d Hd)).
  pose proof (go_side _ _ _ _ _ _ G) as Hs. destruct (Z_lt_le_dec x 0) as [Hlt|]; auto. exfalso.
  assert (inject_Z x < 0) by (change 0 with (inject_Z 0); rewrite <- Zlt_Qlt; auto).
  assert (side * inject_Z x < 0) by nra. lra.
Qed.

Theorem cover_ok max_div overlap dim pc : (1 <= max_div)%Z -> rectangular dim pc -> spread dim pc ->
  exists mins side div pts IN n Cs, generate_cover (fun x => x) max_div overlap dim pc = Ok (pts, IN, (n, Cs)) /\
    cover_data max_div overlap dim pc mins side div pts IN n Cs.
Proof.
  intros Hdiv Hrect Hsp. destruct (grid_ok max_div dim pc Hdiv Hsp) as (mins & maxs & side & div & E1 & E2 & G).
  pose proof (div_nonneg _ _ _ _ _ _ G) as Hnn. pose proof (go_div _ _ _ _ _ _ G) as Ldiv. pose proof (go_mins _ _ _ _ _ _ G) as Lmins.
  destruct (nerve_ok div Hnn) as (Cs & E3 & LC & Hlev). rewrite Ldiv in LC, Hlev.
  set (n := Z.to_nat (grid_size div)) in *.
  assert (Hsize : (0 <= grid_size div)%Z) by (clear - Hnn; induction Hnn; simpl; nia).
  destruct (divide_ok (fun x => x) side overlap mins div pc n (map (fun _ => 0%Z) div) 0%Z) as [Ld Hd].
  { unfold n. lia. }
  { intros Hn. apply start_grid. apply grid_size_pos; auto. lia. }
  set (divided := divide (fun x => x) side overlap mins div pc n (map (fun _ => 0%Z) div)) in *.
  set (IN0 := map (map fst) divided). set (pts0 := map (map snd) divided).
  assert (Hin0 : forall a, in_grid div a -> let i := Z.to_nat (grid_index div a) in (i < n)%nat /\
    increasing (nth i IN0 []) /\
    (forall j, In j (nth i IN0 []) <-> (j < length pc)%nat /\ in_cube mins side overlap a (nth j pc [])) /\
    nth i pts0 [] = map (fun q => nth q pc []) (nth i IN0 [])).
  { intros a Ha i. pose proof (grid_index_bound _ _ Ha) as Hb. assert (Hi : (i < n)%nat) by (unfold i, n; lia). split; auto.
    destruct (Hd i Hi) as (a' & Ha' & Ei & En). assert (a' = a) by (apply (grid_index_inj div); auto; unfold i in Ei; lia). subst a'.
    unfold IN0, pts0. rewrite !(nth_map _ _ _ []) by lia. rewrite En.
    set (f := in_hypercube (lower_corner (fun x => x) side overlap mins a) (upper_corner (fun x => x) side overlap mins a)).
    destruct (numbered f pc) as (H1 & H2 & H3). split; [exact H1|]. split; [|exact H3].
    intros j. rewrite (H2 j). unfold f. pose proof (Forall2_length Ha) as La.
    assert (Hj : (j < length pc)%nat -> length (nth j pc []) = length a).
    { intros Hj. rewrite (Hrect (nth j pc [])) by (apply nth_In; auto). lia. }
    split; intros [H4 Hf]; (split; auto); apply in_hypercube_ok in Hf || apply in_hypercube_ok; auto; lia. }
  assert (HIN : forall v, (v < length IN0)%nat -> increasing (nth v IN0 []) /\ forall q, In q (nth v IN0 []) -> (q < length pc)%nat).
  { intros v Hv. unfold IN0 in Hv. rewrite map_length, Ld in Hv. destruct (grid_index_surj div (Z.of_nat v) Hnn) as (a & Ha & Ea); [unfold n in Hv; lia|].
    destruct (Hin0 a Ha) as (_ & H1 & H2 & _). rewrite Ea, Nat2Z.id in *. split; auto. intros q Hq. apply H2 in Hq. tauto. }
  assert (Hlevels : forall d s, (1 <= d <= 2 ^ dim)%nat -> In s (level n Cs d) -> s <> [] /\ forall v, In v s -> (v < length IN0)%nat).
  { intros d s Hdd Hs. apply (Hlev d Hdd) in Hs. destruct Hs as (H1 & _ & H3 & _). split; [intros ->; simpl in H1; lia|].
    intros v Hv. unfold IN0. rewrite map_length, Ld. auto. }
  destruct (mapM_each (cover_level pc IN0) (fun S r => level_data pc IN0 S (fst r) (snd r)) [] ([], []) Cs) as (rest & E4 & Lr & Hrest).
  { intros S HS. destruct (In_nth _ _ [] HS) as (d & Hdd & ES). apply cover_level_ok; auto. intros s Hs.
    apply (Hlevels (Datatypes.S d)); [lia|]. simpl. rewrite ES. auto. }
  exists mins, side, div, (pts0 :: map fst rest), (IN0 :: map snd rest), n, Cs. split.
  - unfold generate_cover. rewrite E1. cbn [bind]. rewrite E2. cbn [bind]. rewrite number_hypercubes_ok. fold n. fold divided.
    rewrite E3. cbn [bind]. fold IN0 pts0. rewrite E4. reflexivity.
  - constructor; auto.
    + cbn [nth]. unfold IN0. rewrite map_length. auto.
    + cbn [nth]. unfold pts0. rewrite map_length. auto.
    + simpl. rewrite !map_length. lia.
    + intros a Ha i. cbn [nth]. destruct (Hin0 a Ha) as (_ & H1 & H2 & H3). auto.
    + intros d Hdd. destruct d as [|d]; [lia|]. cbn [nth level]. specialize (Hrest d ltac:(lia)).
      rewrite !(nth_map _ _ _ ([], [])) by lia. exact Hrest.
Qed.

(** ** Every small set lies in one hypercube *)
Lemma Q_floor_le x : inject_Z (Qfloor x) <= x.
Proof. apply Qfloor_le. Qed.

Lemma slot (side c M : Q) (D : Z) : 0 < side -> 0 <= c <= M -> 0 < M -> M <= side * inject_Z D ->
  exists x, (0 <= x < D)%Z /\ side * inject_Z x <= c /\ c <= side * inject_Z x + side.
Proof.
  intros Hs Hc HM HD.
  assert (HD0 : (0 < D)%Z).
  { destruct (Z_lt_le_dec 0 D) as [|Hle]; auto. exfalso.
    assert (inject_Z D <= 0) by (change 0 with (inject_Z 0); rewrite <- Zle_Qle; auto). nra. }
  set (f := Qfloor (c / side)).
  assert (Ecs : side * (c / side) == c) by (field; lra).
  assert (Hf1 : side * inject_Z f <= c).
  { rewrite <- Ecs. apply Qmult_le_l; auto. apply Qfloor_le. }
  assert (Hf2 : c < side * inject_Z f + side).
  { rewrite <- Ecs at 1. assert (c / side < inject_Z (f + 1)) by apply Qlt_floor. rewrite inject_Z_plus in H.
    change (inject_Z 1) with 1 in H. assert (side * (c / side) < side * (inject_Z f + 1)) by (apply Qmult_lt_l; auto). lra. }
  assert (Hf0 : (0 <= f)%Z).
  { destruct (Z_lt_le_dec f 0) as [Hlt|]; auto. exfalso.
    assert (inject_Z f <= -1 # 1) by (change (-1 # 1) with (inject_Z (-1)); rewrite <- Zle_Qle; lia). nra. }
  destruct (Z_lt_le_dec f D) as [Hlt|Hge].
  - exists f. split; [lia|]. split; lra.
  - exists (D - 1)%Z. split; [lia|]. assert (E : inject_Z (D - 1) == inject_Z D - 1).
    { unfold Z.sub. rewrite inject_Z_plus, inject_Z_opp. change (inject_Z 1) with 1. lra. }
    assert (inject_Z D <= inject_Z f) by (rewrite <- Zle_Qle; auto).
    assert (side * inject_Z D <= side * inject_Z f) by (apply Qmult_le_l; auto).
    assert (E2 : side * inject_Z (D - 1) == side * inject_Z D - side) by (rewrite E; ring).
    split; lra.
Qed.

Lemma choose_list (P : nat -> Z -> Prop) n : (forall d, (d < n)%nat -> exists x, P d x) ->
  exists a, length a = n /\ forall d, (d < n)%nat -> P d (nth d a 0%Z).
Proof.
  induction n as [|n IH]; intros H.
  - exists []. split; auto. intros; lia.
  - destruct IH as (a & La & Ha); [intros; apply H; lia|]. destruct (H n ltac:(lia)) as (x & Hx).
    exists (a ++ [x]). split; [rewrite app_length; simpl; lia|]. intros d Hd. destruct (Nat.eq_dec d n) as [->|].
    + rewrite app_nth2 by lia. replace (n - length a)%nat with 0%nat by lia. auto.
    + rewrite app_nth1 by lia. apply Ha. lia.
Qed.

Lemma in_grid_nth div : forall a, length a = length div -> (forall d, (d < length div)%nat -> (0 <= nth d a 0 < nth d div 0)%Z) -> in_grid div a.
Proof.
  unfold in_grid. induction div as [|x div IH]; intros [|y a] Hl H; simpl in Hl; try lia; constructor.
  - apply (H 0%nat). simpl. lia.
  - apply IH; [lia|]. intros d Hd. apply (H (S d)). simpl. lia.
Qed.

Lemma in_grid_nth_inv div a : in_grid div a -> forall d, (d < length div)%nat -> (0 <= nth d a 0 < nth d div 0)%Z.
Proof. induction 1; intros [|d] Hd; simpl in *; try lia. apply IHForall2. lia. Qed.

Lemma small_set max_div dim pc mins side div overlap (S : list point) :
  grid_of max_div dim pc mins side div -> thick dim pc -> rectangular dim pc -> S <> [] -> incl S pc ->
  (forall d p q, (d < dim)%nat -> In p S -> In q S -> nth d p 0 - nth d q 0 <= overlap) ->
  exists a, in_grid div a /\ forall p, In p S -> in_cube mins side overlap a p.
Proof.
  intros G Ht Hr Hne Hincl Hsm.
  pose proof (go_side _ _ _ _ _ _ G) as Hs. pose proof (go_div _ _ _ _ _ _ G) as Ldiv.
  destruct (choose_list (fun d x => (0 <= x < nth d div 0)%Z /\ forall p, In p S ->
     let lo := nth d mins 0 + side * inject_Z x in lo - overlap / 2 <= nth d p 0 <= lo + side + overlap / 2) dim) as (a & La & Ha).
  - intros d Hd.
    destruct (amax_ok (map (coord d) pc)) as (M & _ & HinM & HM).
    { destruct pc; [|simpl; congruence]. destruct S as [|p S]; [congruence|]. exfalso. apply (Hincl p). simpl. auto. }
    assert (HL : largest_coord d pc M).
    { split.
      - apply in_map_iff in HinM. destruct HinM as (q & <- & Hq). exists q. split; auto. reflexivity.
      - intros q Hq. apply HM. apply (in_map (coord d)) in Hq. auto. }
    destruct (go_fits _ _ _ _ _ _ G d M Hd HL) as [Hfit _]. destruct (go_least _ _ _ _ _ _ G d Hd) as [_ Hmin].
    destruct (Ht d Hd) as (p0 & q0 & Hp0 & Hq0 & Hlt). destruct HL as [_ HM'].
    destruct (amin_ok (map (coord d) S)) as (u & _ & Hinu & Hu); [destruct S; simpl; congruence|].
    destruct (amax_ok (map (coord d) S)) as (w & _ & Hinw & Hw); [destruct S; simpl; congruence|].
    apply in_map_iff in Hinu, Hinw. destruct Hinu as (pu & Eu & Hpu), Hinw as (pw & Ew & Hpw). unfold coord in Eu, Ew.
    assert (Hb : u <= w) by (apply Hu; rewrite <- Ew; apply (in_map (coord d)) in Hpw; auto).
    assert (Hwu : w - u <= overlap) by (rewrite <- Eu, <- Ew; apply Hsm; auto).
    pose proof (Hmin pu (Hincl pu Hpu)) as B1. pose proof (HM' pw (Hincl pw Hpw)) as B2. rewrite Eu in B1. rewrite Ew in B2.
    pose proof (Hmin p0 Hp0) as B3. pose proof (HM' q0 Hq0) as B4.
    destruct (slot side ((u + w) / 2 - nth d mins 0) (M - nth d mins 0) (nth d div 0%Z)) as (x & Hx & Hx1 & Hx2); auto.
    + split; qlra.
    + lra.
    + exists x. split; auto. intros p Hp. pose proof (Hu (nth d p 0) ltac:(apply (in_map (coord d)) in Hp; auto)) as C1.
      pose proof (Hw (nth d p 0) ltac:(apply (in_map (coord d)) in Hp; auto)) as C2. cbv zeta. split; qlra.
  - exists a. split.
    + apply in_grid_nth; [lia|]. intros d Hd. apply Ha. lia.
    + intros p Hp. split; [rewrite La; apply Hr; auto|]. intros d Hd. apply (Ha d); [lia|auto].
Qed.

Lemma sq_nonneg (z : Q) : 0 <= z * z.
Proof. destruct (Qlt_le_dec z 0); nra. Qed.

Lemma sqdist_coord : forall p q d, length p = length q -> (nth d p 0 - nth d q 0) * (nth d p 0 - nth d q 0) <= sqdist p q.
Proof.
  assert (Hpos : forall p q, 0 <= sqdist p q).
  { induction p as [|x p IH]; intros [|y q]; simpl; try lra. specialize (IH q). pose proof (sq_nonneg (x - y)). lra. }
  induction p as [|x p IH]; intros [|y q] [|d] H; simpl in *; try lia; try lra.
  - pose proof (Hpos p q). lra.
  - specialize (IH q d ltac:(lia)). pose proof (sq_nonneg (x - y)). lra.
Qed.

Lemma sq_small x y r : 0 <= r -> (x - y) * (x - y) < r * r -> x - y <= r.
Proof. intros Hr H. destruct (Qlt_le_dec r (x - y)); auto. exfalso. nra. Qed.

(** ** Properties *)
Lemma thick_spread dim pc : (0 < dim)%nat -> thick dim pc -> spread dim pc.
Proof. intros Hd H. destruct (H 0%nat Hd) as (p & q & H1 & H2 & H3). exists 0%nat, p, q. auto. Qed.

Lemma cover_inv max_div overlap dim pc pts IN n Cs : (1 <= max_div)%Z -> rectangular dim pc -> spread dim pc ->
  generate_cover (fun x => x) max_div overlap dim pc = Ok (pts, IN, (n, Cs)) ->
  exists mins side div, cover_data max_div overlap dim pc mins side div pts IN n Cs.
Proof.
  intros H1 H2 H3 E. destruct (cover_ok max_div overlap dim pc H1 H2 H3) as (mins & side & div & pts' & IN' & n' & Cs' & E' & D).
  rewrite E' in E. inversion E; subst. exists mins, side, div. exact D.
Qed.

Lemma C35_total_aux : forall max_div overlap dim pc, (1 <= max_div)%Z -> rectangular dim pc -> spread dim pc ->
  exists pts IN n Cs, generate_cover (fun x => x) max_div overlap dim pc = Ok (pts, IN, (n, Cs)).
Proof. intros. destruct (cover_ok max_div overlap dim pc) as (mins & side & div & pts & IN & n & Cs & E & D); eauto 8. Qed.

Lemma C35_membership_aux : forall max_div overlap dim pc, (1 <= max_div)%Z -> rectangular dim pc -> spread dim pc ->
  forall pts IN n Cs, generate_cover (fun x => x) max_div overlap dim pc = Ok (pts, IN, (n, Cs)) ->
  exists mins side div, grid_of max_div dim pc mins side div /\ n = Z.to_nat (grid_size div) /\
    length (nth 0 IN []) = n /\ length (nth 0 pts []) = n /\
    forall a, in_grid div a -> let i := Z.to_nat (grid_index div a) in
      increasing (nth i (nth 0 IN []) []) /\
      (forall j, In j (nth i (nth 0 IN []) []) <-> (j < length pc)%nat /\ in_cube mins side overlap a (nth j pc [])) /\
      nth i (nth 0 pts []) [] = map (fun q => nth q pc []) (nth i (nth 0 IN []) []).
Proof.
  intros max_div overlap dim pc H1 H2 H3 pts IN n Cs E. destruct (cover_inv _ _ _ _ _ _ _ _ H1 H2 H3 E) as (mins & side & div & D).
  exists mins, side, div. destruct D. do 4 (split; auto).
Qed.

Lemma small_ok max_div overlap dim pc pts IN n Cs s : (1 <= max_div)%Z -> rectangular dim pc -> (0 < dim)%nat -> thick dim pc ->
  generate_cover (fun x => x) max_div overlap dim pc = Ok (pts, IN, (n, Cs)) -> s <> [] ->
  (forall v, In v s -> (v < length pc)%nat) ->
  (forall u v d, In u s -> In v s -> (d < dim)%nat -> nth d (nth u pc []) 0 - nth d (nth v pc []) 0 <= overlap) ->
  exists i, (i < n)%nat /\ forall v, In v s -> In v (nth i (nth 0 IN []) []).
Proof.
  intros H1 H2 Hd Ht E Hne Hs Hsm. destruct (cover_inv _ _ _ _ _ _ _ _ H1 H2 (thick_spread _ _ Hd Ht) E) as (mins & side & div & D).
  destruct (small_set max_div dim pc mins side div overlap (map (fun v => nth v pc []) s)) as (a & Ha & Hin); auto.
  - apply (cd_grid _ _ _ _ _ _ _ _ _ _ _ D).
  - destruct s; simpl; congruence.
  - intros p Hp. apply in_map_iff in Hp. destruct Hp as (v & <- & Hv). apply nth_In. auto.
  - intros d p q Hdd Hp Hq. apply in_map_iff in Hp, Hq. destruct Hp as (u & <- & Hu), Hq as (v & <- & Hv). auto.
  - exists (Z.to_nat (grid_index div a)). destruct (cd_in _ _ _ _ _ _ _ _ _ _ _ D a Ha) as (_ & G & _).
    pose proof (grid_index_bound _ _ Ha). rewrite (cd_n _ _ _ _ _ _ _ _ _ _ _ D). split; [lia|].
    intros v Hv. apply G. split; auto. apply Hin. apply in_map_iff. eauto.
Qed.

Lemma C35_coverage_aux : forall max_div overlap dim pc, (1 <= max_div)%Z -> rectangular dim pc -> (0 < dim)%nat -> thick dim pc -> 0 <= overlap ->
  forall pts IN n Cs, generate_cover (fun x => x) max_div overlap dim pc = Ok (pts, IN, (n, Cs)) ->
  forall j, (j < length pc)%nat -> exists i, (i < n)%nat /\ In j (nth i (nth 0 IN []) []).
Proof.
  intros max_div overlap dim pc H1 H2 Hd Ht Ho pts IN n Cs E j Hj.
  destruct (small_ok _ _ _ _ _ _ _ _ [j] H1 H2 Hd Ht E) as (i & Hi & Hin).
  - congruence.
  - intros v [<-|[]]. auto.
  - intros u v d [<-|[]] [<-|[]] _. lra.
  - exists i. split; auto. apply Hin. simpl. auto.
Qed.

Lemma grid_size_zero div d : (d < length div)%nat -> nth d div 0%Z = 0%Z -> grid_size div = 0%Z.
Proof.
  revert d. induction div as [|x div IH]; intros [|d] Hd E; simpl in *; try lia. rewrite (IH d); lia.
Qed.

Lemma C35_flat_aux : forall max_div overlap dim pc, (1 <= max_div)%Z -> rectangular dim pc -> spread dim pc ->
  forall d, (d < dim)%nat -> flat d pc ->
  forall pts IN n Cs, generate_cover (fun x => x) max_div overlap dim pc = Ok (pts, IN, (n, Cs)) -> n = 0%nat /\ nth 0 IN [] = [].
Proof.
  intros max_div overlap dim pc H1 H2 H3 d Hd Hf pts IN n Cs E.
  destruct (cover_inv _ _ _ _ _ _ _ _ H1 H2 H3 E) as (mins & side & div & D).
  pose proof (cd_grid _ _ _ _ _ _ _ _ _ _ _ D) as G.
  assert (Hz : nth d div 0%Z = 0%Z).
  { destruct (go_least _ _ _ _ _ _ G d Hd) as [(p & Hp & Ep) Hmin].
    assert (HL : largest_coord d pc (nth d mins 0)).
    { split; [eauto|]. intros q Hq. rewrite <- Ep. rewrite (Hf q p Hq Hp). lra. }
    destruct (go_fits _ _ _ _ _ _ G d _ Hd HL) as [_ F]. pose proof (go_side _ _ _ _ _ _ G) as Hs.
    pose proof (div_nonneg _ _ _ _ _ _ G) as Hnn. rewrite Forall_forall in Hnn.
    assert (Hdl : (d < length div)%nat) by (rewrite (go_div _ _ _ _ _ _ G); auto).
    specialize (Hnn _ (nth_In div 0%Z Hdl)). destruct (Z.eq_dec (nth d div 0%Z) 0) as [|Hne]; auto. exfalso.
    assert (0 <= inject_Z (nth d div 0%Z - 1)) by (change 0 with (inject_Z 0); rewrite <- Zle_Qle; lia). nra. }
  assert (Hn : n = 0%nat).
  { rewrite (cd_n _ _ _ _ _ _ _ _ _ _ _ D), (grid_size_zero div d); auto. rewrite (go_div _ _ _ _ _ _ G). auto. }
  split; auto. apply length_zero_iff_nil. rewrite (cd_len0 _ _ _ _ _ _ _ _ _ _ _ D). auto.
Qed.

Lemma C35_point_aux : forall max_div overlap dim pc, (0 < dim)%nat -> (forall d, (d < dim)%nat -> flat d pc) ->
  generate_cover (fun x => x) max_div overlap dim pc = Err ValueError.
Proof.
  intros max_div overlap dim pc Hd Hf. destruct pc as [|p0 pc'] eqn:Epc.
  - unfold generate_cover, corners_hypercube. destruct dim; [lia|]. reflexivity.
  - rewrite <- Epc in *. destruct (corners_ok dim pc) as (mins & maxs & E & L1 & L2 & H1 & H2); [subst; congruence|].
    unfold generate_cover. rewrite E. cbn [bind]. destruct (lengths_facts dim pc mins maxs L1 L2 H1 H2) as [LL HL].
    set (lengths := zipw (fun M m => M - m) maxs mins) in *.
    unfold side_and_div. fold lengths.
    destruct (amax_ok (map Qabs lengths)) as (L & EL & HinL & HmaxL).
    { destruct lengths; simpl in *; [lia|congruence]. }
    rewrite EL. cbn [bind]. replace (Qeq_bool L 0) with true; [reflexivity|]. symmetry. apply Qeq_bool_iff.
    apply in_map_iff in HinL. destruct HinL as (l & <- & Hl). destruct (In_nth _ _ 0 Hl) as (d & Hdd & <-).
    rewrite LL in Hdd. destruct (HL d Hdd) as [Ed H0]. rewrite Qabs_pos by auto. rewrite Ed.
    destruct (H1 d Hdd) as [(p & Hp & Ep) _]. destruct (H2 d Hdd) as [(q & Hq & Eq) _]. rewrite <- Ep, <- Eq.
    rewrite (Hf d Hdd q p Hq Hp). lra.
Qed.

Lemma C36_coord_aux : forall max_div overlap dim pc max_r, (1 <= max_div)%Z -> rectangular dim pc -> (0 < dim)%nat -> thick dim pc -> max_r <= overlap ->
  forall pts IN n Cs, generate_cover (fun x => x) max_div overlap dim pc = Ok (pts, IN, (n, Cs)) ->
  forall s, s <> [] -> (forall v, In v s -> (v < length pc)%nat) ->
  (forall u v d, In u s -> In v s -> (d < dim)%nat -> nth d (nth u pc []) 0 - nth d (nth v pc []) 0 < max_r) ->
  exists i, (i < n)%nat /\ forall v, In v s -> In v (nth i (nth 0 IN []) []).
Proof.
  intros max_div overlap dim pc max_r H1 H2 Hd Ht Ho pts IN n Cs E s Hne Hs Hsm.
  apply (small_ok max_div overlap dim pc pts IN n Cs s); auto. intros u v d Hu Hv Hdd. specialize (Hsm u v d Hu Hv Hdd). lra.
Qed.

Lemma C36_rips_aux : forall max_div overlap dim pc max_r, (1 <= max_div)%Z -> rectangular dim pc -> (0 < dim)%nat -> thick dim pc -> 0 <= max_r <= overlap ->
  forall pts IN n Cs, generate_cover (fun x => x) max_div overlap dim pc = Ok (pts, IN, (n, Cs)) ->
  forall d s, clique (length pc) (fun u v => sqdist (nth u pc []) (nth v pc []) < max_r * max_r) d s ->
  exists i, (i < n)%nat /\ forall v, In v s -> In v (nth i (nth 0 IN []) []).
Proof.
  intros max_div overlap dim pc max_r H1 H2 Hd Ht Ho pts IN n Cs E k s (Hl & Hinc & Hlt & Hadj).
  apply (small_ok max_div overlap dim pc pts IN n Cs s); auto; [intros ->; simpl in Hl; lia|].
  intros u v d Hu Hv Hdd.
  assert (Hlen : forall w, In w s -> length (nth w pc []) = dim) by (intros w Hw; apply H2; apply nth_In; auto).
  assert (Hle : forall x y, (x - y) * (x - y) < max_r * max_r -> x - y <= max_r) by (intros; apply sq_small; tauto).
  destruct (Nat.lt_trichotomy u v) as [Huv|[->|Huv]].
  - pose proof (Hadj u v Hu Hv Huv). pose proof (sqdist_coord (nth u pc []) (nth v pc []) d ltac:(rewrite !Hlen; auto)).
    assert (nth d (nth u pc []) 0 - nth d (nth v pc []) 0 <= max_r) by (apply Hle; lra). lra.
  - lra.
  - pose proof (Hadj v u Hv Hu Huv). pose proof (sqdist_coord (nth v pc []) (nth u pc []) d ltac:(rewrite !Hlen; auto)).
    assert (nth d (nth u pc []) 0 - nth d (nth v pc []) 0 <= max_r).
    { apply Hle. set (x := nth d (nth u pc []) 0) in *. set (y := nth d (nth v pc []) 0) in *.
      assert ((x - y) * (x - y) == (y - x) * (y - x)) by ring. lra. }
    lra.
Qed.

Lemma C37_aux : forall max_div overlap dim pc, (1 <= max_div)%Z -> rectangular dim pc -> spread dim pc ->
  forall pts IN n Cs, generate_cover (fun x => x) max_div overlap dim pc = Ok (pts, IN, (n, Cs)) ->
  length IN = S (length Cs) /\ length pts = S (length Cs) /\
  forall d, (d <= length Cs)%nat ->
    length (nth d IN []) = length (level n Cs d) /\ length (nth d pts []) = length (level n Cs d) /\
    forall j, (j < length (level n Cs d))%nat -> let s := nth j (level n Cs d) [] in
      increasing (nth j (nth d IN []) []) /\
      (forall q, In q (nth j (nth d IN []) []) <-> (forall v, In v s -> In q (nth v (nth 0 IN []) []))) /\
      nth j (nth d pts []) [] = map (fun q => nth q pc []) (nth j (nth d IN []) []).
Proof.
  intros max_div overlap dim pc H1 H2 H3 pts IN n Cs E. destruct (cover_inv _ _ _ _ _ _ _ _ H1 H2 H3 E) as (mins & side & div & D).
  destruct (cd_lens _ _ _ _ _ _ _ _ _ _ _ D) as [L1 L2]. split; auto. split; auto. intros [|d] Hd.
  - cbn [level]. rewrite map_length, seq_length. split; [apply (cd_len0 _ _ _ _ _ _ _ _ _ _ _ D)|].
    split; [apply (cd_lenp _ _ _ _ _ _ _ _ _ _ _ D)|]. intros j Hj. set (s := nth j (map _ _) []).
    assert (Es : s = [j]). { unfold s. rewrite (nth_map _ _ _ 0%nat) by (rewrite seq_length; auto). rewrite seq_nth by auto. reflexivity. }
    pose proof (cd_n _ _ _ _ _ _ _ _ _ _ _ D) as En. pose proof (div_nonneg _ _ _ _ _ _ (cd_grid _ _ _ _ _ _ _ _ _ _ _ D)) as Hnn.
    destruct (grid_index_surj div (Z.of_nat j) Hnn) as (a & Ha & Ea); [lia|].
    destruct (cd_in _ _ _ _ _ _ _ _ _ _ _ D a Ha) as (G1 & G2 & G3). rewrite Ea, Nat2Z.id in *. split; auto. split; auto.
    intros q. rewrite Es. split; [intros Hq v [<-|[]]; auto|]. intros H. apply H. simpl. auto.
  - destruct (cd_inter _ _ _ _ _ _ _ _ _ _ _ D (S d) ltac:(lia)) as (G1 & G2 & G3). auto.
Qed.

Lemma common_touch mins side overlap pt : 0 < side -> overlap < side -> forall a b, length a = length b ->
  in_cube mins side overlap a pt -> in_cube mins side overlap b pt -> touch a b.
Proof.
  intros Hs Ho a b Hl [_ Ha] [_ Hb].
  assert (G : forall d, (d < length a)%nat -> (Z.abs (nth d a 0 - nth d b 0) <= 1)%Z).
  { intros d Hd. specialize (Ha d Hd). specialize (Hb d ltac:(lia)). cbv zeta in Ha, Hb.
    set (x := nth d a 0%Z) in *. set (y := nth d b 0%Z) in *.
    assert (K : forall x y : Z, side * inject_Z x - side * inject_Z y < 2 * side -> (x - y <= 1)%Z).
    { clear - Hs. intros x y H. destruct (Z_le_gt_dec (x - y) 1); auto. exfalso.
      assert (2 <= inject_Z (x - y)) by (change 2 with (inject_Z 2); rewrite <- Zle_Qle; lia).
      unfold Z.sub in H0. rewrite inject_Z_plus, inject_Z_opp in H0. nra. }
    assert (x - y <= 1)%Z by (apply K; qlra). assert (y - x <= 1)%Z by (apply K; qlra). lia. }
  clear - G Hl. unfold touch. revert b Hl G. induction a as [|x a IH]; intros [|y b] Hl G; simpl in Hl; try lia; constructor.
  - apply (G 0%nat). simpl. lia.
  - apply IH; [lia|]. intros d Hd. apply (G (S d)). simpl. lia.
Qed.

Lemma C51_aux : forall max_div overlap dim pc, (1 <= max_div)%Z -> rectangular dim pc ->
  (exists d p q, (d < dim)%nat /\ In p pc /\ In q pc /\ 0 < nth d q 0 - nth d p 0 /\ overlap * inject_Z max_div < nth d q 0 - nth d p 0) ->
  forall pts IN n Cs, generate_cover (fun x => x) max_div overlap dim pc = Ok (pts, IN, (n, Cs)) ->
  forall d s j, length s = S d -> increasing s -> (forall v, In v s -> (v < n)%nat) ->
  (forall v, In v s -> In j (nth v (nth 0 IN []) [])) -> In s (level n Cs d).
Proof.
  intros max_div overlap dim pc H1 H2 (d0 & p0 & q0 & Hd0 & Hp0 & Hq0 & Hpos & Hlt) pts IN n Cs E k s j Hk Hinc Hn Hj.
  assert (Hsp : spread dim pc) by (exists d0, p0, q0; split; auto; split; auto; split; auto; lra).
  destruct (cover_inv _ _ _ _ _ _ _ _ H1 H2 Hsp E) as (mins & side & div & D).
  pose proof (cd_grid _ _ _ _ _ _ _ _ _ _ _ D) as G. pose proof (cd_n _ _ _ _ _ _ _ _ _ _ _ D) as En.
  pose proof (go_side _ _ _ _ _ _ G) as Hs. pose proof (div_nonneg _ _ _ _ _ _ G) as Hnn.
  assert (Hcl : clique n (adjacent div) k s).
  { split; auto. split; auto. split; auto. intros u v Hu Hv Huv.
    destruct (grid_index_surj div (Z.of_nat u) Hnn) as (a & Ha & Ea); [specialize (Hn u Hu); lia|].
    destruct (grid_index_surj div (Z.of_nat v) Hnn) as (b & Hb & Eb); [specialize (Hn v Hv); lia|].
    exists a, b. split; auto. split; auto. split; auto.
    destruct (cd_in _ _ _ _ _ _ _ _ _ _ _ D a Ha) as (_ & Ga & _). destruct (cd_in _ _ _ _ _ _ _ _ _ _ _ D b Hb) as (_ & Gb & _).
    rewrite Ea, Nat2Z.id in Ga. rewrite Eb, Nat2Z.id in Gb.
    pose proof (proj1 (Ga j) (Hj u Hu)) as [_ Ca]. pose proof (proj1 (Gb j) (Hj v Hv)) as [_ Cb].
    apply (common_touch mins side overlap (nth j pc [])); auto.
    - destruct (go_least _ _ _ _ _ _ G d0 Hd0) as [_ Hmin].
      destruct (amax_ok (map (coord d0) pc)) as (M & _ & HinM & HM); [destruct pc; [destruct Hp0|simpl; congruence]|].
      assert (HL : largest_coord d0 pc M).
      { split.
        - apply in_map_iff in HinM. destruct HinM as (q & <- & Hq). exists q. split; auto. reflexivity.
        - intros q Hq. apply HM. apply (in_map (coord d0)) in Hq. auto. }
      pose proof (go_within _ _ _ _ _ _ G d0 M Hd0 HL) as W. destruct HL as [_ HM']. specialize (HM' q0 Hq0). specialize (Hmin p0 Hp0).
      assert (Hmd : 0 < inject_Z max_div) by (change 0 with (inject_Z 0); rewrite <- Zlt_Qlt; lia).
      destruct (Qlt_le_dec overlap side) as [|Hge]; auto. exfalso.
      assert (side * inject_Z max_div <= overlap * inject_Z max_div) by (apply Qmult_le_compat_r; lra). lra.
    - pose proof (Forall2_length Ha). pose proof (Forall2_length Hb). lia. }
  destruct k as [|k].
  - destruct s as [|v [|? ?]]; simpl in Hk; try lia. cbn [level]. apply in_map_iff. exists v. split; auto. apply in_seq.
    specialize (Hn v (or_introl eq_refl)). lia.
  - assert (Hk2 : (S k < 2 ^ dim)%nat). { rewrite En in Hcl. apply clique_count in Hcl; auto. rewrite (go_div _ _ _ _ _ _ G) in Hcl. auto. }
    apply (cd_levels _ _ _ _ _ _ _ _ _ _ _ D (S k)); auto. lia.
Qed.
