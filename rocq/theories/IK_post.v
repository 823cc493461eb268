(** * Sorting, filtering and reordering around the loop of [image_kernel] *)
From Verif Require Import Base ListX SortX Lin Gauss_model Gauss_arith Gauss_col Gauss_bar Basis_model Basis_props PH_model IK_model IK_lin Spec_PH Spec_IK.
From Verif Require LC_props PH_loop.
From Coq Require Import Znumtheory Sorting.Sorted Sorting.Permutation.
Local Open Scope Z_scope.

(** ** Inverse permutations *)
Record bij (N : nat) (pi rho : list nat) : Prop := {
  bj_pi : length pi = N;
  bj_rho : length rho = N;
  bj_1 : forall i, (i < N)%nat -> (nth i rho 0 < N)%nat /\ nth (nth i rho 0%nat) pi 0%nat = i;
  bj_2 : forall s, (s < N)%nat -> (nth s pi 0 < N)%nat /\ nth (nth s pi 0%nat) rho 0%nat = s
}.

Lemma bij_id N : bij N (seq 0 N) (seq 0 N).
Proof.
  assert (H : forall i, (i < N)%nat -> nth i (seq 0 N) 0%nat = i) by (intros i Hi; rewrite seq_nth; lia).
  constructor; rewrite ?seq_length; auto; intros i Hi; rewrite !H; auto; rewrite H; auto.
Qed.

Lemma argsort_bij N l : Permutation (seq 0 N) l -> bij N l (argsort_nat l).
Proof.
  intros HP. assert (Hl : length l = N) by (rewrite <- (Permutation_length HP), seq_length; auto).
  assert (Hin : forall i, In i l <-> (i < N)%nat).
  { intros i. rewrite <- (seq_length N 0) at 1. split; intros H.
    - apply (Permutation_in i (Permutation_sym HP)) in H. apply in_seq in H. rewrite seq_length. lia.
    - rewrite seq_length in H. apply (Permutation_in i HP). apply in_seq. lia. }
  assert (Hnd : NoDup l) by (apply (Permutation_NoDup HP), seq_NoDup).
  set (r := argsort_nat l).
  assert (Hr : length r = N) by (unfold r, argsort_nat; rewrite isort_length, seq_length; auto).
  assert (Hrin : forall i, In i r <-> (i < N)%nat) by (intros i; unfold r, argsort_nat; rewrite isort_In, in_seq; lia).
  assert (Hinj : forall i j, (i < N)%nat -> (j < N)%nat -> nth i l 0%nat = nth j l 0%nat -> i = j).
  { intros i j Hi Hj E. apply (proj1 (NoDup_nth l 0%nat) Hnd); lia. }
  assert (Hs : StronglySorted (fun i j => (nth i l 0 < nth j l 0)%nat) r).
  { apply (isort_sorted _ (fun i j => (i < j < N)%nat)).
    - intros i j Hij H. apply Nat.leb_le in H. assert (nth i l 0%nat <> nth j l 0%nat) by (intros E; apply Hinj in E; lia). lia.
    - intros i j Hij H. apply Nat.leb_gt in H. auto.
    - intros i j k. lia.
    - apply (nth_sorted _ _ 0%nat). rewrite seq_length. intros i j Hij. rewrite !seq_nth; lia. }
  assert (E : map (fun i => nth i l 0%nat) r = seq 0 N).
  { apply (sorted_unique lt).
    - intros x. lia.
    - intros x y z. lia.
    - apply sorted_map. exact Hs.
    - apply seq_sorted.
    - intros x. rewrite in_map_iff, in_seq. split.
      + intros (i & <- & Hi). apply Hrin in Hi. assert (In (nth i l 0%nat) l) by (apply nth_In; lia). apply Hin in H. lia.
      + intros Hx. assert (Hx' : In x l) by (apply Hin; lia). apply In_nth with (d := 0%nat) in Hx'. destruct Hx' as (i & Hi & Ei).
        exists i. split; auto. apply Hrin. lia. }
  assert (H1 : forall i, (i < N)%nat -> (nth i r 0 < N)%nat /\ nth (nth i r 0%nat) l 0%nat = i).
  { intros i Hi. split; [apply Hrin, nth_In; lia|].
    assert (X : nth i (map (fun i => nth i l 0%nat) r) 0%nat = i) by (rewrite E, seq_nth; lia).
    rewrite (nth_map _ _ _ 0%nat) in X by lia. exact X. }
  constructor; auto. intros s Hs'.
  assert (Hp : (nth s l 0 < N)%nat) by (apply Hin, nth_In; lia). split; auto.
  destruct (H1 _ Hp) as [X Y]. apply Hinj; auto.
Qed.

Lemma bij_perm N pi rho : bij N pi rho -> NoDup pi /\ forall i, In i pi <-> (i < N)%nat.
Proof.
  intros [H1 H2 H3 H4]. split.
  - apply (NoDup_nth pi 0%nat). intros i j Hi Hj E. destruct (H4 i ltac:(lia)) as [_ X]. destruct (H4 j ltac:(lia)) as [_ Y]. congruence.
  - intros i. split; intros H.
    + apply In_nth with (d := 0%nat) in H. destruct H as (s & Hs & <-). apply H4. lia.
    + destruct (H3 i H) as [X <-]. apply nth_In. lia.
Qed.

Lemma bij_sum N pi rho f : bij N pi rho -> Zsum N (fun t => f (nth t pi 0%nat)) = Zsum N f.
Proof.
  intros H. destruct (bij_perm N pi rho H) as [Hnd Hin]. rewrite <- (bj_pi _ _ _ H) at 1.
  apply LC_props.Zsum_select; auto.
  - intros g Hg. apply Hin; auto.
  - intros g Hg Hn. elim Hn. apply Hin; auto.
Qed.

(** ** Filtering and sorting a family *)
Lemma mask_index {A} (mask : list bool) (X : list A) d : length X = length mask ->
  mask_filter mask X = map (fun k => nth k X d) (mask_filter mask (seq 0 (length mask))).
Proof.
  intros H. rewrite <- (map_nth_seq X d) at 1. rewrite H. clear H.
  generalize (seq 0 (length mask)) as s. revert mask. 
  induction mask as [|b mask IH]; intros s; simpl; auto. destruct s as [|x s]; simpl; [destruct b; auto|].
  destruct b; simpl; rewrite IH; auto.
Qed.

Lemma keep_In bars k : In k (mask_filter (well_defined bars) (seq 0 (length bars))) <->
  (k < length bars)%nat /\ fst (nth k bars (0, 0)) < snd (nth k bars (0, 0)).
Proof.
  unfold well_defined. rewrite (mask_seq_In _ _ (0, 0)). rewrite Nat.sub_0_r, Z.ltb_lt. intuition lia.
Qed.

Lemma keep_NoDup bars : NoDup (mask_filter (well_defined bars) (seq 0 (length bars))).
Proof.
  assert (StronglySorted lt (mask_filter (well_defined bars) (seq 0 (length bars)))) by (apply mask_filter_sorted, seq_sorted).
  revert H. generalize (mask_filter (well_defined bars) (seq 0 (length bars))). induction 1 as [|x l H IH Hf]; constructor; auto.
  rewrite Forall_forall in Hf. intros Hx. apply Hf in Hx. lia.
Qed.

(** The positions, in the input, of the generators of the filtered and sorted basis. *)
Record sel (bars : list bar) (l : list nat) : Prop := {
  sl_nd : NoDup l;
  sl_in : forall k, In k l <-> (k < length bars)%nat /\ fst (nth k bars (0, 0)) < snd (nth k bars (0, 0))
}.

Lemma NoDup_map_nth (keep order : list nat) : NoDup keep -> Permutation (seq 0 (length keep)) order ->
  NoDup (map (fun t => nth t keep 0%nat) order) /\ forall k, In k (map (fun t => nth t keep 0%nat) order) <-> In k keep.
Proof.
  intros Hk Ho.
  assert (P : Permutation keep (map (fun t => nth t keep 0%nat) order)).
  { rewrite <- (map_nth_seq keep 0%nat) at 1. apply Permutation_map. auto. }
  split; [apply (Permutation_NoDup P); auto|]. intros k. split; intros H; [apply (Permutation_in k (Permutation_sym P)); auto|apply (Permutation_in k P); auto].
Qed.

Lemma post_spec rnd bars pb coords store : ncols coords = length bars -> nrows coords = b_dim pb -> wf_mat coords ->
  (store = true -> bars <> []) ->
  exists b b' order l, mk_basis false bars (Some pb) coords store false None = Ok b /\ b_sort rnd b = Ok (b', order) /\
    b_wd b = (if store then Some (well_defined bars) else None) /\
    sel bars l /\ (forall t, In t order -> (t < length l)%nat) /\ length order = length l /\
    b_bars b' = map (fun k => nth k bars (0, 0)) l /\ b_coords b' = take_cols coords l /\
    b_dim b' = length l /\ b_flat b' = false /\ b_prev b' = Some pb /\ b_sorted b' = true /\ b_brk b' = None /\
    (forall (A : Type) (X : list A) d, length X = length bars ->
       length (mask_filter (well_defined bars) X) = length l /\
       map (fun t => nth t (mask_filter (well_defined bars) X) d) order = map (fun k => nth k X d) l).
Proof.
  intros Hc Hr Hwf Hst.
  set (wd := well_defined bars). set (keep := mask_filter wd (seq 0 (length bars))).
  assert (Hwd : length wd = length bars) by (unfold wd, well_defined; apply map_length).
  assert (Hkb : (if Nat.eqb (length bars) 0 then bars else mask_filter wd bars) = map (fun k => nth k bars (0, 0)) keep).
  { destruct (Nat.eqb_spec (length bars) 0) as [E|E].
    - destruct bars; [reflexivity|discriminate].
    - rewrite (mask_index wd bars (0, 0)) by auto. rewrite Hwd. reflexivity. }
  assert (Hkd : (if Nat.eqb (length bars) 0 then 0%nat else length (filter (fun b => b) wd)) = length keep).
  { destruct (Nat.eqb_spec (length bars) 0) as [E|E].
    - unfold keep. rewrite E. cbn. unfold wd. destruct bars; [reflexivity|discriminate].
    - unfold wd, well_defined. rewrite filter_map_id. rewrite <- mask_filter_map.
      change (map (fun b => fst b <? snd b) bars) with wd. rewrite (mask_index wd bars (0, 0)) by auto. rewrite map_length, Hwd. reflexivity. }
  assert (Hcc : mk_coords bars (Some pb) coords = Ok (Mat (nrows coords) (map (fun k => nth k (cols coords) []) keep))).
  { unfold mk_coords. destruct (Nat.ltb_spec 0 (ncols coords)) as [H|H].
    - rewrite Hr, Nat.eqb_refl. cbn [negb]. rewrite Hc, Nat.eqb_refl. cbn [negb]. do 2 f_equal.
      fold wd. rewrite (mask_index wd (cols coords) []); [rewrite Hwd; reflexivity|]. unfold ncols in Hc. unfold vec in *. lia.
    - f_equal. destruct coords as [nr cs]. unfold ncols in *. cbn in *. f_equal. destruct cs; [|cbn in H; lia].
      unfold keep. rewrite <- Hc. cbn. unfold wd. destruct bars; [reflexivity|discriminate]. }
  set (bs := map (fun k => nth k bars (0, 0)) keep).
  set (b := Basis bs false (length keep) (Some pb) (Mat (nrows coords) (map (fun k => nth k (cols coords) []) keep)) false None (if store then Some wd else None)).
  exists b.
  set (order := sort_order rnd bs). set (l := map (fun t => nth t keep 0%nat) order).
  assert (Lbs : length bs = length keep) by (unfold bs; apply map_length).
  assert (Lo : length order = length keep) by (unfold order; rewrite sort_order_length; auto).
  assert (Ho : forall t, In t order -> (t < length keep)%nat) by (intros t Ht; apply sort_order_lt in Ht; lia).
  exists (Basis (take (0, 0) bs order) false (length keep) (Some pb) (take_cols (b_coords b) order) true None (b_wd b)), order, l.
  assert (Ll : length l = length keep) by (unfold l; rewrite map_length; auto).
  refine (conj _ (conj _ (conj eq_refl (conj _ (conj _ (conj _ (conj _ (conj _ (conj (eq_sym Ll) (conj eq_refl (conj eq_refl (conj eq_refl (conj eq_refl _))))))))))))); [| | | |lia| | |].
  - unfold mk_basis. cbn [andb]. fold wd. rewrite Hcc, Hkb, Hkd. cbn [bind].
    replace (store && Nat.eqb (length bars) 0) with false.
    + reflexivity.
    + destruct store; cbn [andb]; auto. destruct bars; [elim Hst; auto|reflexivity].
  - unfold b_sort. cbn [b_flat b b_prev b_bars b_coords b_brk]. fold order. rewrite take_cols_err_ok.
    + cbn [bind]. reflexivity.
    + intros j Hj. unfold ncols. cbn [cols]. rewrite map_length. auto.
  - destruct (NoDup_map_nth keep order) as [X Y].
    { apply keep_NoDup. }
    { rewrite <- Lbs. apply sort_order_perm. }
    constructor; auto. intros k. unfold l. rewrite Y. apply keep_In.
  - intros t Ht. rewrite Ll. auto.
  - cbn [b_bars]. unfold take, l. rewrite map_map. apply map_ext_in. intros t Ht. unfold bs. rewrite (nth_map _ _ _ 0%nat) by auto. reflexivity.
  - cbn [b_coords b]. unfold take_cols. cbn [nrows]. f_equal. unfold l. rewrite map_map. apply map_ext_in. intros t Ht.
    unfold col at 1. cbn [cols]. rewrite (nth_map _ _ _ 0%nat) by auto. reflexivity.
  - intros A X d HX. rewrite (mask_index wd X d) by congruence. rewrite Hwd. fold keep. split; [rewrite map_length; auto|].
    unfold l. rewrite map_map. apply map_ext_in. intros t Ht. rewrite (nth_map _ _ _ 0%nat) by auto. reflexivity.
Qed.

(** ** From a family to its filtered and sorted version *)
Lemma idx_inv (l : list nat) (c' : nat -> Z) : NoDup l ->
  exists c : nat -> Z, (forall t, (t < length l)%nat -> c (nth t l 0%nat) = c' t) /\ (forall k, ~ In k l -> c k = 0).
Proof.
  intros Hnd. exists (fun k => match find_idx (Nat.eqb k) l with Some t => c' t | None => 0 end). split.
  - intros t Ht. destruct (find_idx _ l) as [u|] eqn:E.
    + apply (find_idx_Some _ _ _ 0%nat) in E. destruct E as (H1 & H2 & _). apply Nat.eqb_eq in H2. f_equal.
      apply (proj1 (NoDup_nth l 0%nat) Hnd); auto.
    + rewrite find_idx_None in E. specialize (E (nth t l 0%nat) (nth_In _ _ Ht)). rewrite Nat.eqb_refl in E. discriminate.
  - intros k Hk. destruct (find_idx _ l) as [u|] eqn:E; auto. apply (find_idx_Some _ _ _ 0%nat) in E. destruct E as (H1 & H2 & _).
    apply Nat.eqb_eq in H2. elim Hk. rewrite H2. apply nth_In; auto.
Qed.

Lemma family_transfer p (Zs Bs : (nat -> Z) -> Prop) N (V : nat -> nat -> Z) (ok : nat -> Prop) (l : list nat) (g : nat -> nat -> Z) (al : nat -> Prop) (aldec : forall t, {al t} + {~ al t}) :
  NoDup l -> (forall k, In k l -> (k < N)%nat) -> (forall k, (k < N)%nat -> ok k -> In k l) ->
  (forall k, (k < N)%nat -> ok k -> Zs (V k)) ->
  (forall u v, (forall i, cong p (u i) (v i)) -> Zs u -> Zs v) ->
  (forall u v, (forall i, cong p (u i) (v i)) -> Bs u -> Bs v) ->
  (forall v, Zs v -> exists c, (forall k, (k < N)%nat -> ~ cong p (c k) 0 -> ok k) /\ Bs (fun i => v i - lc N c V i)) ->
  (forall c, (forall k, (k < N)%nat -> ~ cong p (c k) 0 -> ok k) -> Bs (lc N c V) -> forall k, (k < N)%nat -> cong p (c k) 0) ->
  (forall t, (t < length l)%nat -> forall i, g t i = V (nth t l 0%nat) i) ->
  (forall t, (t < length l)%nat -> (al t <-> ok (nth t l 0%nat))) ->
  quotient_basis p Zs Bs (length l) g al.
Proof.
  intros Hnd Hlt Hcov Hmem HZ HB Hspan Hind Hg Hal. split; [|split].
  - intros t Ht Ha. apply (HZ (V (nth t l 0%nat))); [intros i; rewrite Hg by auto; reflexivity|].
    apply Hmem; [apply Hlt, nth_In; auto|]. apply Hal; auto.
  - intros v Hv. destruct (Hspan v Hv) as (c & Hc & Hb).
    exists (fun t => if aldec t then c (nth t l 0%nat) else 0). split.
    + intros k Hk. destruct (aldec k); [contradiction|auto].
    + apply (HB _ _) with (2 := Hb). intros i.
      assert (X : cong p (lc N c V i) (Zsum (length l) (fun k => (if aldec k then c (nth k l 0%nat) else 0) * g k i))); [|rewrite X; reflexivity].
      unfold lc. rewrite (Zsum_cong p N _ (fun k => if cong_dec p (c k) 0 then 0 else c k * V k i)).
      2:{ intros k Hk. destruct (cong_dec p (c k) 0) as [E|E]; [rewrite E; apply cong_eq; ring|reflexivity]. }
      rewrite <- (LC_props.Zsum_select N l) by (auto; intros k Hk Hn; destruct (cong_dec p (c k) 0) as [E|E]; auto; elim Hn; apply Hcov; auto).
      apply Zsum_cong. intros t Ht. rewrite Hg by auto. destruct (aldec t) as [Ea|Ea].
      * destruct (cong_dec p (c (nth t l 0%nat)) 0) as [E|E]; [rewrite E; apply cong_eq; ring|reflexivity].
      * destruct (cong_dec p (c (nth t l 0%nat)) 0) as [E|E]; [apply cong_eq; ring|].
        elim Ea. apply Hal; auto. apply Hc; auto. apply Hlt, nth_In; auto.
  - intros c' Hc' Hb t Ht. destruct (idx_inv l c' Hnd) as (c & Hc1 & Hc2).
    assert (X : cong p (c (nth t l 0%nat)) 0).
    { apply Hind.
      - intros k Hk Hn. destruct (in_dec Nat.eq_dec k l) as [Hin|Hin]; [|rewrite Hc2 in Hn by auto; elim Hn; reflexivity].
        apply In_nth with (d := 0%nat) in Hin. destruct Hin as (u & Hu & <-). apply Hal; auto.
        destruct (aldec u) as [Ea|Ea]; auto. rewrite Hc1, Hc' in Hn by auto. elim Hn. reflexivity.
      - apply (HB _ _) with (2 := Hb). intros i. apply cong_eq. unfold lc.
        rewrite <- (LC_props.Zsum_select N l); auto.
        + apply Zsum_ext. intros u Hu. rewrite Hc1, Hg by auto. reflexivity.
        + intros k _ Hk. rewrite Hc2 by auto. ring.
      - apply Hlt, nth_In; auto. }
    rewrite Hc1 in X by auto. destruct X as [q Eq]. rewrite Z.sub_0_r in Eq. rewrite Eq. apply Z_mod_mult.
Qed.

Lemma filter_id {A} (f : A -> bool) l : (forall x, In x l -> f x = true) -> filter f l = l.
Proof. induction l as [|x l IH]; intros H; auto. simpl. rewrite (H x) by (left; auto). f_equal. apply IH. intros y Hy. apply H. right. auto. Qed.

Lemma mk_plain bars : (forall x : bar, In x bars -> fst x < snd x) ->
  mk_basis false bars None no_coords false false None = Ok (Basis bars false (length bars) None no_coords false None None).
Proof.
  intros H. unfold mk_basis. cbn [andb mk_coords bind mk_brk].
  assert (E : (if Nat.eqb (length bars) 0 then bars else mask_filter (well_defined bars) bars) = bars).
  { destruct (Nat.eqb_spec (length bars) 0); auto. unfold well_defined. rewrite mask_filter_map. apply filter_id. intros x Hx. apply Z.ltb_lt. auto. }
  rewrite E.
  replace (if Nat.eqb (length bars) 0 then 0%nat else length (filter (fun b => b) (well_defined bars))) with (length bars); [reflexivity|].
  destruct (Nat.eqb_spec (length bars) 0); auto. unfold well_defined. rewrite filter_map_id, filter_id; auto. intros x Hx. apply Z.ltb_lt. auto.
Qed.

Record sorted_as (b b' : basis) (N : nat) (pi rho : list nat) : Prop := {
  sa_bij : bij N pi rho;
  sa_ok : bars_ok b';
  sa_dim : b_dim b' = N;
  sa_nth : forall s, (s < N)%nat -> nth s (b_bars b') (0, 0) = nth (nth s pi 0%nat) (b_bars b) (0, 0)
}.

Lemma order_B_spec rnd B F : bars_ok B -> b_brk B = None -> b_dim B = nrows F -> wf_mat F ->
  exists B' F1 ret pi, order_B rnd B F = Ok (B', F1, ret) /\ sorted_as B B' (nrows F) pi ret /\ b_brk B' = None /\
    nrows F1 = nrows F /\ ncols F1 = ncols F /\ wf_mat F1 /\
    forall i j, (i < nrows F)%nat -> (j < ncols F)%nat -> get F1 i j = get F (nth i pi 0%nat) j.
Proof.
  intros (Hf & Hd & Hn) Hb HdF Hwf. unfold order_B. destruct (b_sorted B).
  - exists B, F, (seq 0 (b_dim B)), (seq 0 (b_dim B)). rewrite HdF. split; auto. split; [|split; [auto|split; [auto|split; [auto|split; [auto|]]]]].
    + constructor; auto; [apply bij_id|split; auto|]. intros s Hs. rewrite seq_nth by auto. reflexivity.
    + intros i j Hi Hj. rewrite seq_nth by auto. reflexivity.
  - rewrite Hf, Hb. rewrite mk_plain by auto. cbn [bind]. unfold b_sort. cbn [b_flat b_bars b_prev b_coords b_brk b_dim b_wd bind].
    set (o := sort_order rnd (b_bars B)).
    assert (HP : Permutation (seq 0 (nrows F)) o) by (rewrite <- HdF, Hd; apply sort_order_perm).
    pose proof (argsort_bij (nrows F) o HP) as Hbij. destruct (bij_perm _ _ _ Hbij) as [Hnd Hin].
    unfold take_rows_err. replace (forallb _ o) with true.
    2:{ symmetry. apply forallb_forall. intros i Hi. apply Nat.ltb_lt. apply Hin. auto. }
    cbn [bind]. eexists _, _, _, o. split; [reflexivity|].
    assert (Lo : length o = nrows F) by apply Hbij.
    split; [|split; [reflexivity|split; [|split; [|split]]]].
    + constructor; auto.
      * split; [reflexivity|]. cbn [b_dim b_bars]. unfold take. rewrite map_length. split; [lia|].
        intros x Hx. apply in_map_iff in Hx. destruct Hx as (i & <- & Hi). apply Hn, nth_In. apply Hin in Hi. lia.
      * cbn [b_dim]. lia.
      * intros s Hs. cbn [b_bars]. unfold take. rewrite (nth_map _ _ _ 0%nat) by lia. reflexivity.
    + unfold take_rows. cbn [nrows]. auto.
    + unfold take_rows, ncols. cbn [cols]. apply map_length.
    + unfold take_rows, wf_mat. cbn [cols nrows]. apply Forall_forall. intros c Hc. apply in_map_iff in Hc. destruct Hc as (c0 & <- & _). apply map_length.
    + intros i j Hi Hj. unfold get. rewrite col_take_rows by auto. rewrite (vget_nth_map _ 0%nat) by lia. reflexivity.
Qed.

Lemma In_skipn {A} (l : list A) s x : In x (skipn s l) -> In x l.
Proof. intros H. rewrite <- (firstn_skipn s l). apply in_or_app. right. auto. Qed.
Lemma In_firstn {A} (l : list A) s x : In x (firstn s l) -> In x l.
Proof. intros H. rewrite <- (firstn_skipn s l). apply in_or_app. left. auto. Qed.

(** Extension of a permutation by the identity on the first [s] indices. *)
Definition shift_by (s : nat) (l : list nat) : list nat := seq 0 s ++ map (fun i => (i + s)%nat) l.

Lemma shift_bij s N pi rho : bij N pi rho -> bij (s + N) (shift_by s pi) (shift_by s rho).
Proof.
  intros [H1 H2 H3 H4]. unfold shift_by.
  assert (Hlo : forall l i, (i < s)%nat -> nth i (seq 0 s ++ map (fun i => (i + s)%nat) l) 0%nat = i).
  { intros l i Hi. rewrite app_nth1 by (rewrite seq_length; auto). rewrite seq_nth; lia. }
  assert (Hhi : forall l i, (s <= i < s + length l)%nat -> nth i (seq 0 s ++ map (fun i => (i + s)%nat) l) 0%nat = (nth (i - s) l 0 + s)%nat).
  { intros l i Hi. rewrite app_nth2 by (rewrite seq_length; lia). rewrite seq_length. rewrite (nth_map _ _ _ 0%nat) by lia. reflexivity. }
  constructor.
  - rewrite app_length, seq_length, map_length. lia.
  - rewrite app_length, seq_length, map_length. lia.
  - intros i Hi. destruct (lt_dec i s) as [X|X].
    + rewrite (Hlo _ i), (Hlo _ i) by auto. split; lia.
    + rewrite (Hhi rho i) by lia. destruct (H3 (i - s)%nat ltac:(lia)) as [Y1 Y2]. split; [lia|].
      rewrite Hhi by lia. replace (nth (i - s) rho 0 + s - s)%nat with (nth (i - s) rho 0%nat) by lia. lia.
  - intros i Hi. destruct (lt_dec i s) as [X|X].
    + rewrite (Hlo _ i), (Hlo _ i) by auto. split; lia.
    + rewrite (Hhi pi i) by lia. destruct (H4 (i - s)%nat ltac:(lia)) as [Y1 Y2]. split; [lia|].
      rewrite Hhi by lia. replace (nth (i - s) pi 0 + s - s)%nat with (nth (i - s) pi 0%nat) by lia. lia.
Qed.

Lemma take_cols_shape F js : wf_mat F -> (forall j, In j js -> (j < ncols F)%nat) ->
  take_cols_err F js = Ok (take_cols F js) /\ nrows (take_cols F js) = nrows F /\ ncols (take_cols F js) = length js /\ wf_mat (take_cols F js) /\
  forall i j, (j < length js)%nat -> get (take_cols F js) i j = get F i (nth j js 0%nat).
Proof.
  intros Hwf H. split; [apply take_cols_err_ok; auto|]. split; [reflexivity|]. split; [unfold ncols, take_cols; cbn [cols]; apply map_length|]. split.
  - unfold wf_mat, take_cols. cbn [cols nrows]. apply Forall_forall. intros c Hc. apply in_map_iff in Hc. destruct Hc as (j & <- & Hj). apply wf_col; auto.
  - intros i j Hj. unfold get. rewrite nth_take_cols by auto. reflexivity.
Qed.

Lemma order_A_spec rnd A F s : bars_ok A -> b_sorted A = false -> b_dim A = ncols F -> wf_mat F -> (s <= ncols F)%nat ->
  rnd_faithful rnd (skipn s (b_bars A)) ->
  exists A' F2 ret pi, order_A rnd A F s = Ok (A', F2, ret) /\ bij (ncols F - s) pi ret /\
    sorted_as A A' (ncols F) (shift_by s pi) (shift_by s ret) /\
    nrows F2 = nrows F /\ ncols F2 = ncols F /\ wf_mat F2 /\
    (forall i j, (j < ncols F)%nat -> get F2 i j = get F i (nth j (shift_by s pi) 0%nat)) /\
    (forall i j, (s <= i <= j)%nat -> (j < ncols F)%nat -> fst (nth i (b_bars A') (0, 0)) <= fst (nth j (b_bars A') (0, 0))).
Proof.
  intros (Hf & Hd & Hn) Hb HdF Hwf Hs Hrnd. unfold order_A. rewrite Hb.
  set (n := ncols F) in *. set (rel := skipn s (b_bars A)) in *.
  assert (Lr : length rel = (n - s)%nat) by (unfold rel; rewrite skipn_length; lia).
  rewrite Hf. rewrite mk_plain by (intros x Hx; apply Hn; apply In_skipn in Hx; auto). cbn [bind].
  unfold b_sort. cbn [b_flat b_bars b_prev b_coords b_brk b_dim b_wd bind].
  set (o := sort_order rnd rel).
  assert (HP : Permutation (seq 0 (n - s)) o) by (rewrite <- Lr; apply sort_order_perm).
  pose proof (argsort_bij (n - s) o HP) as Hbij. destruct (bij_perm _ _ _ Hbij) as [Hnd Hin].
  assert (Lo : length o = (n - s)%nat) by apply Hbij.
  change (seq 0 s ++ map (fun i => (i + s)%nat) o) with (shift_by s o).
  pose proof (shift_bij s _ _ _ Hbij) as Hbs. replace (s + (n - s))%nat with n in Hbs by lia.
  destruct (bij_perm _ _ _ Hbs) as [_ Hins].
  destruct (take_cols_shape F (shift_by s o) Hwf) as (E1 & E2 & E3 & E4 & E5).
  { intros j Hj. apply Hins in Hj. auto. }
  rewrite E1. cbn [bind].
  set (bars' := firstn s (b_bars A) ++ take (0, 0) rel o).
  assert (Hn' : forall x, In x bars' -> fst x < snd x).
  { intros x Hx. apply Hn. unfold bars' in Hx. apply in_app_or in Hx. destruct Hx as [Hx|Hx]; [apply In_firstn in Hx; auto|].
    unfold take in Hx. apply in_map_iff in Hx. destruct Hx as (i & <- & Hi). apply Hin in Hi. apply (In_skipn _ s). fold rel. apply nth_In. lia. }
  unfold plain_basis. rewrite mk_plain by auto. cbn [bind].
  assert (Lf : length (firstn s (b_bars A)) = s) by (rewrite firstn_length; lia).
  assert (Lb : length bars' = n) by (unfold bars', take; rewrite app_length, map_length; lia).
  assert (Lsh : length (shift_by s o) = n) by apply Hbs.
  assert (Hhi : forall i, (s <= i < n)%nat -> nth i bars' (0, 0) = nth (nth (i - s) o 0%nat) rel (0, 0)).
  { intros i Hi. unfold bars'. rewrite app_nth2 by lia. rewrite Lf. unfold take. rewrite (nth_map _ _ _ 0%nat) by lia. reflexivity. }
  eexists _, _, _, o. split; [reflexivity|]. split; [exact Hbij|].
  split; [|split; [exact E2|split; [congruence|split; [exact E4|split]]]].
  - constructor; auto.
    + split; [reflexivity|]. cbn [b_dim b_bars]. auto.
    + intros i Hi. cbn [b_bars]. destruct (lt_dec i s) as [X|X].
      * unfold bars'. rewrite app_nth1 by lia. unfold shift_by. rewrite app_nth1 by (rewrite seq_length; auto). rewrite seq_nth by auto.
        apply nth_firstn. auto.
      * rewrite Hhi by lia. unfold rel. rewrite nth_skipn. f_equal. unfold shift_by. rewrite app_nth2 by (rewrite seq_length; lia).
        rewrite seq_length, (nth_map _ _ _ 0%nat) by lia. lia.
  - intros i j Hj. rewrite E5 by lia. reflexivity.
  - intros i j Hij Hj. cbn [b_bars]. rewrite !Hhi by lia.
    destruct (Nat.eq_dec i j) as [->|Hne]; [lia|].
    assert (Hij' : (i - s < j - s < length o)%nat) by lia.
    pose proof (sorted_nth _ _ 0%nat (sort_order_sorted rnd rel) _ _ Hij') as Hbb. fold o in Hbb.
    apply Hrnd.
    + apply nth_In. rewrite Lr. apply Hin, nth_In. lia.
    + apply nth_In. rewrite Lr. apply Hin, nth_In. lia.
    + unfold bar_before in Hbb. lia.
Qed.

Lemma shift_by_0 l : shift_by 0 l = l.
Proof. unfold shift_by. cbn [seq app]. rewrite <- (map_id l) at 2. apply map_ext. intros i. lia. Qed.

Lemma order_A0_spec rnd A F : bars_ok A -> dom_ok rnd A -> b_dim A = ncols F -> wf_mat F ->
  exists A' F2 ret pi, order_A rnd A F 0 = Ok (A', F2, ret) /\
    sorted_as A A' (ncols F) pi ret /\
    nrows F2 = nrows F /\ ncols F2 = ncols F /\ wf_mat F2 /\
    (forall i j, (j < ncols F)%nat -> get F2 i j = get F i (nth j pi 0%nat)) /\
    (forall i j, (i <= j)%nat -> (j < ncols F)%nat -> fst (nth i (b_bars A') (0, 0)) <= fst (nth j (b_bars A') (0, 0))).
Proof.
  intros HA Hdom Hd Hwf. unfold dom_ok in Hdom. destruct (b_sorted A) eqn:Hs.
  - unfold order_A. rewrite Hs. exists A, F, (seq 0 (b_dim A)), (seq 0 (b_dim A)). rewrite Hd. destruct HA as (H1 & H2 & H3).
    split; auto. split; [|split; [auto|split; [auto|split; [auto|split]]]].
    + constructor; auto; [apply bij_id|split; auto|]. intros s Hs'. rewrite seq_nth by auto. reflexivity.
    + intros i j Hj. rewrite seq_nth by auto. reflexivity.
    + intros i j Hij Hj. apply Hdom; lia.
  - destruct (order_A_spec rnd A F 0 HA Hs Hd Hwf ltac:(lia) Hdom) as (A' & F2 & ret & pi & H1 & H2 & H3 & H4 & H5 & H6 & H7 & H8).
    rewrite !shift_by_0 in *. exists A', F2, ret, pi. repeat (split; auto). intros i j Hij Hj. apply H8; lia.
Qed.
