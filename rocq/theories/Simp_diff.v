(** * Boundary matrices: signed facets and [D D = 0] *)
From Verif Require Import Base ListX SortX Lin PH_model Simp_model Spec_Simp Simp_lists.
From Coq Require Import Sorted Permutation.
Local Open Scope Z_scope.

(** ** Facets *)
Lemma facet_length k s : (k < length s)%nat -> length (facet k s) = (length s - 1)%nat.
Proof. intros H. unfold facet. rewrite app_length, firstn_length, skipn_length. lia. Qed.

Lemma nth_facet k s i d : (k <= length s)%nat -> nth i (facet k s) d = nth (if Nat.ltb i k then i else S i) s d.
Proof.
  intros Hk. unfold facet. destruct (Nat.ltb_spec i k) as [H|H].
  - rewrite app_nth1 by (rewrite firstn_length; lia). apply nth_firstn. auto.
  - rewrite app_nth2 by (rewrite firstn_length; lia). rewrite nth_skipn, firstn_length. f_equal. lia.
Qed.

Lemma facet_split k s : (k < length s)%nat -> s = firstn k s ++ nth k s 0%nat :: skipn (S k) s.
Proof.
  intros H. rewrite <- (firstn_skipn k s) at 1. f_equal.
  apply (nth_ext _ _ 0%nat 0%nat); cbn [length]; rewrite ?skipn_length; [lia|].
  intros [|i] Hi; cbn [nth]; rewrite ?nth_skipn; f_equal; lia.
Qed.

Lemma increasing_nth s : increasing s -> forall i j, (i < j < length s)%nat -> (nth i s 0 < nth j s 0)%nat.
Proof. intros H. apply (sorted_nth lt s 0%nat H). Qed.

Lemma increasing_nth_inj s i j : increasing s -> (i < length s)%nat -> (j < length s)%nat ->
  nth i s 0%nat = nth j s 0%nat -> i = j.
Proof.
  intros H Hi Hj E. destruct (lt_eq_lt_dec i j) as [[L|L]|L]; auto; exfalso.
  - pose proof (increasing_nth s H i j). lia.
  - pose proof (increasing_nth s H j i). lia.
Qed.

Lemma facet_increasing k s : increasing s -> (k < length s)%nat -> increasing (facet k s).
Proof.
  intros H Hk. apply (nth_sorted _ _ 0%nat). intros i j Hij. rewrite facet_length in Hij by auto.
  rewrite !nth_facet by lia. apply increasing_nth; auto.
  destruct (Nat.ltb_spec i k), (Nat.ltb_spec j k); lia.
Qed.

Lemma facet_In k s x : increasing s -> (k < length s)%nat -> In x (facet k s) <-> In x s /\ x <> nth k s 0%nat.
Proof.
  intros H Hk. pose proof (increasing_NoDup s H) as Hn. rewrite (facet_split k s Hk) in Hn.
  apply NoDup_remove in Hn. destruct Hn as [_ Hn]. fold (facet k s) in Hn.
  rewrite (facet_split k s Hk) at 2. unfold facet in *. rewrite !in_app_iff in *. simpl. split.
  - intros Hx. split; [tauto|]. intros ->. tauto.
  - intros [[Hx|[Hx|Hx]] Hne]; auto. congruence.
Qed.

Lemma facet_inj k l s : increasing s -> (k < length s)%nat -> (l < length s)%nat -> facet k s = facet l s -> k = l.
Proof.
  intros H Hk Hl E. destruct (Nat.eq_dec k l) as [|Hne]; auto. exfalso.
  assert (Hin : In (nth k s 0%nat) (facet l s)).
  { apply facet_In; auto. split; [apply nth_In; auto|]. intros E'. apply Hne. apply (increasing_nth_inj s); auto. }
  rewrite <- E in Hin. apply facet_In in Hin; auto. destruct Hin; congruence.
Qed.

(** Removing two vertices in either order. *)
Lemma facet_facet k l s : (l < k < length s)%nat -> facet l (facet k s) = facet (k - 1) (facet l s).
Proof.
  intros H. apply (nth_ext _ _ 0%nat 0%nat).
  - rewrite !facet_length; rewrite ?facet_length; lia.
  - intros i Hi. rewrite !nth_facet by (rewrite ?facet_length; lia). f_equal.
    destruct (Nat.ltb_spec i l), (Nat.ltb_spec i (k - 1)); try lia.
    + destruct (Nat.ltb_spec i k), (Nat.ltb_spec i l); lia.
    + destruct (Nat.ltb_spec (S i) k), (Nat.ltb_spec i l); lia.
    + destruct (Nat.ltb_spec (S i) k), (Nat.ltb_spec (S i) l); lia.
Qed.

(** ** The matrix entry computed by the code *)
Lemma forallb_filter_id {A} (f : A -> bool) l : forallb f l = true -> filter f l = l.
Proof.
  induction l as [|x l IH]; simpl; auto. intros H. apply andb_true_iff in H. destruct H as [-> H]. f_equal. auto.
Qed.

Lemma searchsorted_nth s k : increasing s -> (k < length s)%nat -> searchsorted s (nth k s 0%nat) = k.
Proof.
  intros H Hk. unfold searchsorted.
  transitivity (length (filter (fun y => Nat.ltb y (nth k s 0%nat)) (firstn k s ++ nth k s 0%nat :: skipn (S k) s))).
  { rewrite <- facet_split by auto. reflexivity. }
  rewrite filter_app. cbn [filter]. rewrite Nat.ltb_irrefl. rewrite app_length.
  assert (H1 : filter (fun y => Nat.ltb y (nth k s 0%nat)) (firstn k s) = firstn k s).
  { apply forallb_filter_id. apply forallb_forall. intros x Hx. apply (In_nth _ _ 0%nat) in Hx.
    destruct Hx as (i & Hi & <-). rewrite firstn_length in Hi. rewrite nth_firstn by lia.
    apply Nat.ltb_lt. apply increasing_nth; auto. lia. }
  assert (H2 : filter (fun y => Nat.ltb y (nth k s 0%nat)) (skipn (S k) s) = []).
  { destruct (filter _ (skipn (S k) s)) as [|x l] eqn:E; auto. exfalso.
    assert (Hx : In x (x :: l)) by (simpl; auto). rewrite <- E in Hx. apply filter_In in Hx.
    destruct Hx as [Hx Hlt]. apply Nat.ltb_lt in Hlt. apply (In_nth _ _ 0%nat) in Hx.
    destruct Hx as (i & Hi & <-). rewrite skipn_length in Hi. rewrite nth_skipn in Hlt.
    pose proof (increasing_nth s H k (S k + i)). lia. }
  rewrite H1, H2, firstn_length. simpl. lia.
Qed.

Lemma length_filter_all {A} (f : A -> bool) l : length (filter f l) = length l -> forall x, In x l -> f x = true.
Proof.
  induction l as [|y l IH]; simpl; [intros _ ? []|].
  intros H x Hx.
  destruct (f y) eqn:E; simpl in H.
  - destruct Hx as [<-|Hx]; auto.
  - exfalso. assert (length (filter f l) <= length l)%nat.
    { clear. induction l as [|z l IH]; simpl; auto. destruct (f z); simpl; lia. }
    lia.
Qed.

Lemma face_entry_ok d p s c : length s = S d -> increasing s -> length c = d -> increasing c ->
  exists e, face_entry d p s c = Ok e /\
    (forall k, (k <= d)%nat -> c = facet k s -> e = ((-1) ^ Z.of_nat k) mod p) /\
    ((forall k, (k <= d)%nat -> c <> facet k s) -> e = 0).
Proof.
  intros Hs Is Hc Ic. unfold face_entry. destruct (Nat.eqb_spec (length (intersect1d c s)) d) as [E|E].
  - (* every vertex of c is a vertex of s *)
    unfold intersect1d in E. rewrite nunique_id in E by auto. rewrite <- Hc in E.
    pose proof (length_filter_all _ _ E) as Hin. clear E.
    assert (Hk : exists k, (k <= d)%nat /\ c = facet k s).
    { assert (Hx : exists x, In x s /\ ~ In x c).
      { destruct (forallb (fun x => memn x c) s) eqn:F.
        - exfalso. rewrite forallb_forall in F.
          assert (length s <= length c)%nat; [|lia].
          apply NoDup_incl_length; [apply increasing_NoDup; auto|]. intros x Hx. apply memn_In. auto.
        - assert (Hex : existsb (fun x => negb (memn x c)) s = true).
          { clear - F. induction s as [|x s IH]; simpl in *; [discriminate|].
            destruct (memn x c); simpl in *; auto. }
          apply existsb_exists in Hex. destruct Hex as (x & Hx & Hn). exists x. split; auto.
          rewrite <- memn_In. destruct (memn x c); simpl in Hn; congruence. }
      destruct Hx as (x & Hx & Hn). apply (In_nth _ _ 0%nat) in Hx. destruct Hx as (k & Hk & Ek).
      exists k. split; [lia|]. apply increasing_ext; auto; [apply facet_increasing; auto|].
      assert (Hincl : incl c (facet k s)).
      { intros y Hy. apply facet_In; auto. split.
        - apply memn_In. apply Hin. auto.
        - intros ->. rewrite Ek in Hy. auto. }
      intros y. split; auto. apply NoDup_length_incl; auto.
      + apply increasing_NoDup; auto.
      + rewrite facet_length; lia. }
    destruct Hk as (k & Hk & Ec).
    assert (Esd : setdiff1d s c = [nth k s 0%nat]).
    { apply increasing_ext.
      - apply filter_sorted, nunique_sorted.
      - repeat constructor.
      - intros x. rewrite setdiff1d_In, Ec, facet_In by (auto; lia). simpl. split.
        + intros [H1 H2]. left. destruct (Nat.eq_dec x (nth k s 0%nat)); auto. exfalso. auto.
        + intros [<-|[]]. split; [apply nth_In; lia|]. intros [_ K]. auto. }
    rewrite Esd. simpl. rewrite searchsorted_nth by (auto; lia). eexists. split; [reflexivity|]. split.
    + intros k' Hk' E'. rewrite Ec in E'. apply facet_inj in E'; auto; try lia. subst. reflexivity.
    + intros Hno. exfalso. apply (Hno k); auto.
  - exists 0. split; auto. split; auto. intros k Hk Ec. exfalso. apply E.
    unfold intersect1d. rewrite nunique_id by auto. rewrite forallb_filter_id; auto.
    apply forallb_forall. intros x Hx. apply memn_In. rewrite Ec in Hx. apply facet_In in Hx; auto; [tauto|lia].
Qed.

(** ** The boundary coefficient as a sum over facets *)
Definition simp_eqb (s t : list nat) : bool := if list_eq_dec Nat.eq_dec s t then true else false.

Lemma simp_eqb_eq s t : simp_eqb s t = true <-> s = t.
Proof. unfold simp_eqb. destruct (list_eq_dec _ _ _); split; congruence. Qed.

Definition sg (k : nat) : Z := (-1) ^ Z.of_nat k.

Lemma sg_S k : sg (S k) = - sg k.
Proof. unfold sg. rewrite Nat2Z.inj_succ, Z.pow_succ_r by lia. lia. Qed.

Lemma sg_sq k : sg k * sg k = 1.
Proof. induction k; [reflexivity|]. rewrite sg_S. lia. Qed.

Definition ind (b : bool) : Z := if b then 1 else 0.

(** Coefficient of [t] in the boundary of [s]. *)
Definition bdc (t s : list nat) : Z := Zsum (length s) (fun k => sg k * ind (simp_eqb (facet k s) t)).

Lemma bdc_facet s k : increasing s -> (k < length s)%nat -> bdc (facet k s) s = sg k.
Proof.
  intros H Hk. unfold bdc. rewrite (Zsum_single _ k); auto.
  - replace (simp_eqb _ _) with true by (symmetry; apply simp_eqb_eq; auto). simpl. ring.
  - intros l Hl Hne. destruct (simp_eqb _ _) eqn:E; [|simpl; ring].
    apply simp_eqb_eq in E. apply facet_inj in E; auto. congruence.
Qed.

Lemma bdc_other s t : (forall k, (k < length s)%nat -> t <> facet k s) -> bdc t s = 0.
Proof.
  intros H. apply Zsum_0. intros k Hk. destruct (simp_eqb _ _) eqn:E; [|simpl; ring].
  apply simp_eqb_eq in E. exfalso. apply (H k Hk). auto.
Qed.

Lemma face_or_not s t : {k | (k < length s)%nat /\ t = facet k s} + {forall k, (k < length s)%nat -> t <> facet k s}.
Proof.
  destruct (find_idx (fun k => simp_eqb (facet k s) t) (seq 0 (length s))) as [i|] eqn:E.
  - left. apply (find_idx_Some _ _ _ 0%nat) in E. rewrite seq_length in E. destruct E as (Hi & E & _).
    exists i. split; auto. rewrite seq_nth in E by auto. simpl in E. apply simp_eqb_eq in E. auto.
  - right. intros k Hk Et. rewrite find_idx_None in E. specialize (E k ltac:(apply in_seq; lia)).
    assert (simp_eqb (facet k s) t = true) by (apply simp_eqb_eq; auto). congruence.
Qed.

(** Sum over all cells of a level against the boundary coefficients of one simplex. *)
Lemma sum_bdc (L : list (list nat)) (g : list nat -> Z) s : NoDup L ->
  (forall k, (k < length s)%nat -> In (facet k s) L) ->
  Zsum (length L) (fun j => g (nth j L []) * bdc (nth j L []) s) = Zsum (length s) (fun k => sg k * g (facet k s)).
Proof.
  intros HL Hin. unfold bdc.
  rewrite (Zsum_ext _ _ (fun j => Zsum (length s) (fun k => g (nth j L []) * (sg k * ind (simp_eqb (facet k s) (nth j L [])))))).
  2:{ intros j Hj. rewrite Zsum_scale. reflexivity. }
  rewrite Zsum_swap. apply Zsum_ext. intros k Hk.
  destruct (In_nth _ _ [] (Hin k Hk)) as (j & Hj & E).
  rewrite (Zsum_single _ j); auto.
  - replace (simp_eqb _ _) with true by (symmetry; apply simp_eqb_eq; auto). rewrite E. simpl. ring.
  - intros l Hl Hne. destruct (simp_eqb _ _) eqn:E'; [|simpl; ring].
    apply simp_eqb_eq in E'. exfalso. apply Hne. apply (proj1 (NoDup_nth L []) HL); auto. congruence.
Qed.

(** The double sum that cancels. *)
Lemma cancel_sum m (f : nat -> nat -> Z) :
  (forall k l, (l < k <= m)%nat -> f k l = - f l (k - 1)%nat) ->
  Zsum (S m) (fun k => Zsum m (fun l => f k l)) = 0.
Proof.
  revert f. induction m as [|m IH]; intros f H; [reflexivity|].
  change (Zsum (S (S m)) (fun k => Zsum (S m) (fun l => f k l)))
    with (Zsum (S m) (fun k => Zsum m (fun l => f k l) + f k m) + Zsum (S m) (fun l => f (S m) l)).
  rewrite Zsum_add, IH by (intros; apply H; lia).
  rewrite (Zsum_ext _ (fun l => f (S m) l) (fun l => - f l m)).
  - rewrite Zsum_opp. ring.
  - intros l Hl. rewrite H by lia. repeat f_equal. lia.
Qed.

Lemma bdc_bdc s t : Zsum (length s) (fun k => sg k * bdc t (facet k s)) = 0.
Proof.
  destruct (length s) as [|m] eqn:Hs; [reflexivity|].
  rewrite (Zsum_ext _ _ (fun k => Zsum m (fun l => sg k * (sg l * ind (simp_eqb (facet l (facet k s)) t))))).
  2:{ intros k Hk. unfold bdc. rewrite facet_length, Hs by lia. replace (S m - 1)%nat with m by lia.
      rewrite Zsum_scale. reflexivity. }
  apply cancel_sum. intros k l Hkl. rewrite facet_facet by lia.
  destruct k as [|k]; [lia|]. replace (S k - 1)%nat with k by lia. rewrite sg_S. ring.
Qed.

(** [D D = 0] in terms of boundary coefficients. *)
Lemma bdc_square (L : list (list nat)) s t : NoDup L ->
  (forall k, (k < length s)%nat -> In (facet k s) L) ->
  Zsum (length L) (fun j => bdc t (nth j L []) * bdc (nth j L []) s) = 0.
Proof. intros HL Hin. rewrite (sum_bdc L (bdc t) s) by auto. apply bdc_bdc. Qed.

(** ** The matrices *)
Lemma edge_column_ok n0 p c u v : c = [u; v] -> (u < v < n0)%nat ->
  exists l, edge_column n0 p c = Ok l /\ length l = n0 /\
    forall i, vget l i = if Nat.eqb i u then 1 else if Nat.eqb i v then p - 1 else 0.
Proof.
  intros -> H. unfold edge_column. simpl.
  destruct (Nat.ltb_spec u n0); [|lia]. simpl. destruct (Nat.ltb_spec v n0); [|lia].
  eexists. split; [reflexivity|]. split.
  - rewrite !list_set_length. unfold vzero. apply repeat_length.
  - intros i. unfold vget, vzero. rewrite !nth_list_set, !list_set_length, !repeat_length.
    destruct (Nat.eqb_spec i v), (Nat.eqb_spec i u), (Nat.ltb_spec u n0), (Nat.ltb_spec v n0); simpl; try lia; auto.
    apply nth_repeat.
Qed.

Lemma diff_matrix_ok d p Cd1 Cd :
  (forall s, In s Cd -> length s = S d /\ increasing s) -> (forall c, In c Cd1 -> length c = d /\ increasing c) ->
  exists D, diff_matrix d p Cd1 Cd = Ok D /\ wf_mat D /\ nrows D = length Cd1 /\ ncols D = length Cd /\
    forall i j, (i < length Cd1)%nat -> (j < length Cd)%nat ->
      get D i j = bdc (nth i Cd1 []) (nth j Cd []) mod p.
Proof.
  intros Hs Hc. unfold diff_matrix.
  set (en := fun s c => match face_entry d p s c with Ok e => e | Err _ => 0 end).
  assert (He : forall s c, In s Cd -> In c Cd1 -> face_entry d p s c = Ok (en s c) /\ en s c = bdc c s mod p).
  { intros s c H1 H2. destruct (Hs s H1) as [L1 I1], (Hc c H2) as [L2 I2].
    destruct (face_entry_ok d p s c L1 I1 L2 I2) as (e & E & H3 & H4). unfold en. rewrite E. split; auto.
    destruct (face_or_not s c) as [(k & Hk & Ec)|Hno].
    - rewrite (H3 k) by (auto; lia). rewrite Ec, bdc_facet; auto.
    - rewrite H4 by (intros k Hk; apply Hno; lia). rewrite bdc_other by auto. symmetry. apply Zmod_0_l. }
  rewrite (mapM_pure _ (fun s => map (en s) Cd1)).
  2:{ intros s H1. apply mapM_pure. intros c H2. apply He; auto. }
  simpl. eexists. split; [reflexivity|]. split; [|split; [|split]]; auto.
  - unfold wf_mat. simpl. apply Forall_forall. intros x Hx. apply in_map_iff in Hx. destruct Hx as (s & <- & _).
    apply map_length.
  - unfold ncols. simpl. apply map_length.
  - intros i j Hi Hj. unfold get, col, vget. simpl.
    rewrite (nth_map _ _ _ []) by auto. rewrite (nth_map _ _ _ []) by auto.
    apply He; apply nth_In; auto.
Qed.

Lemma diff_levels_ok d p Cd1 Cs : (forall c, In c Cd1 -> length c = d /\ increasing c) ->
  (forall k s, In s (nth k Cs []) -> length s = S (d + k) /\ increasing s) ->
  exists Ds, diff_levels d p Cd1 Cs = Ok Ds /\ length Ds = length Cs /\
    forall k, (k < length Cs)%nat ->
      let L := nth k (Cd1 :: Cs) [] in let L' := nth k Cs [] in let D := nth k Ds (Mat 0 []) in
      wf_mat D /\ nrows D = length L /\ ncols D = length L' /\
      forall i j, (i < length L)%nat -> (j < length L')%nat -> get D i j = bdc (nth i L []) (nth j L' []) mod p.
Proof.
  revert d Cd1. induction Cs as [|Cd Cs IH]; intros d Cd1 Hc HCs.
  - exists []. split; auto. split; auto. intros k Hk. simpl in Hk. lia.
  - destruct (diff_matrix_ok d p Cd1 Cd) as (D & E & HD); auto.
    { intros s H1. destruct (HCs 0%nat s H1) as [H2 H3]. split; auto. lia. }
    destruct (IH (S d) Cd) as (Ds & E' & Hl & H).
    { intros c H1. destruct (HCs 0%nat c H1) as [H2 H3]. split; auto. lia. }
    { intros k s H1. destruct (HCs (S k) s H1) as [H2 H3]. split; auto. lia. }
    cbn [diff_levels]. rewrite E. cbn [bind]. rewrite E'. cbn [bind]. exists (D :: Ds). split; auto. split; [simpl; lia|].
    intros [|k] Hk; [exact HD|]. apply (H k). simpl in Hk. lia.
Qed.

(** All matrices at once; the sign of [D[1]] is opposite to the standard one. *)
Definition dsign (d : nat) : Z := match d with O => -1 | S _ => 1 end.

Theorem differentials_ok n0 Cs p : 1 < p -> Cs <> [] -> well_formed n0 Cs ->
  exists Ds, complex_differentials n0 Cs p = Ok (n0, Ds) /\ length Ds = length Cs /\
    forall d, (d < length Cs)%nat ->
      let L := level n0 Cs d in let L' := level n0 Cs (S d) in let D := nth d Ds (Mat 0 []) in
      wf_mat D /\ nrows D = length L /\ ncols D = length L' /\
      forall i j, (i < length L)%nat -> (j < length L')%nat ->
        get D i j = (dsign d * bdc (nth i L []) (nth j L' [])) mod p.
Proof.
  intros Hp Hne Hwf. destruct Cs as [|C1 Cs]; [congruence|]. cbn [complex_differentials].
  assert (HC1 : forall c, In c C1 -> exists u v, c = [u; v] /\ (u < v < n0)%nat).
  { intros c Hc. destruct (Hwf 1%nat c Hc) as (Hl & Hi & Hv).
    destruct c as [|u [|v [|w c]]]; simpl in Hl; try lia. exists u, v. split; auto.
    inversion Hi as [|? ? ? Hf]; subst. inversion Hf; subst. split; auto. apply Hv. simpl; auto. }
  set (ec := fun c => match edge_column n0 p c with Ok l => l | Err _ => [] end).
  assert (Hec : forall c, In c C1 -> edge_column n0 p c = Ok (ec c) /\ length (ec c) = n0 /\
     forall i, (i < n0)%nat -> vget (ec c) i = (- bdc [i] c) mod p).
  { intros c Hc. destruct (HC1 c Hc) as (u & v & E & Huv). destruct (edge_column_ok n0 p c u v E Huv) as (l & El & Hl & Hg).
    unfold ec. rewrite El. split; auto. split; auto. intros i Hi. rewrite Hg, E. unfold bdc. simpl.
    unfold facet. simpl.
    assert (Ev : simp_eqb [v] [i] = Nat.eqb i v).
    { destruct (Nat.eqb_spec i v) as [->|Hn]; [apply simp_eqb_eq; auto|].
      destruct (simp_eqb [v] [i]) eqn:F; auto. apply simp_eqb_eq in F. congruence. }
    assert (Eu : simp_eqb [u] [i] = Nat.eqb i u).
    { destruct (Nat.eqb_spec i u) as [->|Hn]; [apply simp_eqb_eq; auto|].
      destruct (simp_eqb [u] [i]) eqn:F; auto. apply simp_eqb_eq in F. congruence. }
    rewrite Ev, Eu. unfold sg. change ((-1) ^ Z.of_nat 0) with 1. change ((-1) ^ Z.of_nat 1) with (-1).
    destruct (Nat.eqb_spec i u), (Nat.eqb_spec i v); cbn [ind]; try lia.
    - symmetry. apply (Z.mod_small 1). lia.
    - replace (- (1 + 0)) with (p - 1 + (-1) * p) by ring.
      rewrite Z_mod_plus_full. symmetry. apply Z.mod_small. lia.
    - symmetry. apply (Zmod_0_l p). }
  rewrite (mapM_pure _ ec) by (intros; apply Hec; auto). cbn [bind].
  destruct (diff_levels_ok 2 p C1 Cs) as (Ds & E & Hl & H).
  { intros c Hc. destruct (Hwf 1%nat c Hc) as (H1 & H2 & _). auto. }
  { intros k s Hs. destruct (Hwf (S (S k)) s Hs) as (H1 & H2 & _). split; auto. }
  rewrite E. cbn [bind]. eexists. split; [reflexivity|]. split; [simpl; lia|].
  intros [|d] Hd.
  - cbn [nth level]. split; [|split; [|split]].
    + unfold wf_mat. simpl. apply Forall_forall. intros x Hx. apply in_map_iff in Hx. destruct Hx as (c & <- & Hc).
      apply Hec; auto.
    + simpl. rewrite map_length, seq_length. auto.
    + unfold ncols. simpl. apply map_length.
    + rewrite map_length, seq_length. intros i j Hi Hj. unfold get, col. cbn [cols].
      rewrite (nth_map _ _ _ []) by auto. destruct (Hec (nth j C1 []) (nth_In _ _ Hj)) as (_ & _ & Hg).
      rewrite Hg by auto. rewrite nth_map_seq by auto. unfold dsign. reflexivity.
  - cbn [nth dsign]. destruct (H d) as (H1 & H2 & H3 & H4); [simpl in Hd; lia|].
    split; auto. split; [|split].
    + rewrite H2. destruct d; reflexivity.
    + rewrite H3. reflexivity.
    + intros i j Hi Hj. rewrite H4; [|destruct d; exact Hi|exact Hj]. rewrite Z.mul_1_l. destruct d; reflexivity.
Qed.

Theorem differentials_square n0 Cs p Ds : 1 < p -> simplicial n0 Cs ->
  complex_differentials n0 Cs p = Ok (n0, Ds) ->
  forall d i j, (S d < length Cs)%nat -> (i < length (level n0 Cs d))%nat -> (j < length (level n0 Cs (S (S d))))%nat ->
  Zsum (length (level n0 Cs (S d))) (fun k => get (nth d Ds (Mat 0 [])) i k * get (nth (S d) Ds (Mat 0 [])) k j) mod p = 0.
Proof.
  intros Hp (Hwf & Hnd & Hcl) HD d i j Hd Hi Hj.
  destruct (differentials_ok n0 Cs p Hp) as (Ds' & E & Hl & H); auto.
  { intros ->. simpl in Hd. lia. }
  rewrite HD in E. injection E as <-.
  set (L := level n0 Cs (S d)) in *. set (s := nth j (level n0 Cs (S (S d))) []).
  set (t := nth i (level n0 Cs d) []).
  apply cong0_small with (p := p); [apply Z.mod_pos_bound; lia|]. rewrite cong_mod.
  rewrite (Zsum_cong p _ _ (fun k => dsign d * (bdc t (nth k L []) * bdc (nth k L []) s))).
  - rewrite Zsum_scale. rewrite (bdc_square L s t); [apply cong_eq; ring|apply Hnd|].
    intros k Hk. apply Hcl; [apply nth_In; auto|].
    destruct (Hwf (S (S d)) s) as (Hs & _); [apply nth_In; auto|]. lia.
  - intros k Hk. destruct (H d) as (_ & _ & _ & H1); [lia|]. destruct (H (S d)) as (_ & _ & _ & H2); [lia|].
    rewrite H1, H2 by auto. fold L s t. rewrite !cong_mod. apply cong_eq. cbn [dsign]. ring.
Qed.
