(** * [quotient] and [module_persistence_homology] *)
From Verif Require Import Base ListX SortX Lin Gauss_model Gauss_arith Gauss_col Gauss_bar Basis_model Basis_props PH_model IK_model IK_pivot IK_lin IK_phase IK_kphase IK_inv IK_loop IK_rel IK_unit IK_rloop IK_post IK_abs IK_relabs Spec_PH Spec_IK.
From Coq Require Import Znumtheory Sorting.Sorted Sorting.Permutation.
Local Open Scope Z_scope.

Lemma quotient_basis_ext {X} p (Z1 B1 Z2 B2 : (X -> Z) -> Prop) n g al : (forall v, Z1 v <-> Z2 v) -> (forall v, B1 v <-> B2 v) ->
  quotient_basis p Z1 B1 n g al -> quotient_basis p Z2 B2 n g al.
Proof.
  intros HZ HB (H1 & H2 & H3). split; [|split].
  - intros k Hk Ha. apply HZ. auto.
  - intros v Hv. apply HZ in Hv. destruct (H2 v Hv) as (c & Hc & Hb). exists c. split; auto. apply HB. auto.
  - intros c Hc Hb. apply H3; auto. apply HB. auto.
Qed.

(** ** Spans *)
Section Null.
Variables (p : Z) (B : list (Z * Z)) (r : Z).
Hypothesis p_pos : 0 < p.

Lemma null_cong u v : (forall i, living B r i = true -> cong p (u i) (v i)) -> null_at p B r u -> null_at p B r v.
Proof. intros H Hu i Hi. apply mod_cong; auto. rewrite <- (H i Hi). apply mod_cong; auto. Qed.
Lemma null_0 v : (forall i, living B r i = true -> cong p (v i) 0) -> null_at p B r v.
Proof. intros H i Hi. apply mod_cong; auto. Qed.
Lemma null_use v i : null_at p B r v -> living B r i = true -> cong p (v i) 0.
Proof. intros H Hi. apply mod_cong; auto. Qed.
Lemma null_add u v : null_at p B r u -> null_at p B r v -> null_at p B r (fun i => u i + v i).
Proof. intros Hu Hv. apply null_0. intros i Hi. rewrite (null_use u i), (null_use v i) by auto. reflexivity. Qed.
Lemma null_lc N c (W : nat -> nat -> Z) : (forall k, (k < N)%nat -> c k = 0 \/ null_at p B r (W k)) -> null_at p B r (lc N c W).
Proof.
  intros H. apply null_0. intros i Hi. apply lc_cong0. intros k Hk. destruct (H k Hk) as [->|X]; [apply cong_eq; ring|].
  rewrite (null_use (W k) i) by auto. apply cong_eq; ring.
Qed.
End Null.

(** Columns of a morphism whose bar has ended vanish. *)
Lemma dead_null p B bars M r k : morphism p bars B M -> (k < length bars)%nat -> snd (nth k bars (0, 0)) <= r -> null_at p B r (column M k).
Proof.
  intros Hm Hk Hd i Hi. unfold column. apply living_iff in Hi. destruct (Z.eq_dec (get M i k mod p) 0) as [|Hn]; auto.
  destruct (Hm i k) as [_ X]; [tauto|auto|auto|lia].
Qed.

Lemma mapply_lc_col M c i : mapply M c i = lc (ncols M) c (column M) i.
Proof. unfold mapply, lc, column. apply Zsum_ext. intros; ring. Qed.

(** For a family of generators with their bars the span of the born columns is that of the living ones. *)
Lemma born_span_span_at p B bars M r v : prime p -> ncols M = length bars -> morphism p bars B M ->
  (born_span p B bars M r v <-> span_at p B bars M r v).
Proof.
  intros Hp HM Hm. assert (p_pos : 0 < p) by (destruct Hp; lia). split.
  - intros (c & Hc & Hv). exists c. apply (null_cong p B r p_pos) with (2 := Hv). intros i Hi. rewrite mapply_lc_col, HM. unfold lc.
    apply cong_sub; [reflexivity|]. apply Zsum_cong. intros k Hk. unfold restr. destruct (living bars r k) eqn:E; [unfold column; reflexivity|].
    destruct (Z.eq_dec (c k) 0) as [->|Hn]; [apply cong_eq; ring|]. destruct (Hc k Hn) as [_ Hb].
    assert (X : snd (nth k bars (0, 0)) <= r).
    { destruct (Z_le_gt_dec (snd (nth k bars (0, 0))) r); auto. assert (living bars r k = true); [apply living_iff; lia|congruence]. }
    rewrite (null_use p B r p_pos _ i (dead_null p B bars M r k Hm Hk X) Hi). apply cong_eq; ring.
  - intros (c & Hv). exists (restr bars r c). split.
    + intros k Hk. unfold restr in Hk. destruct (living bars r k) eqn:E; [|lia]. apply living_iff in E. lia.
    + apply (null_cong p B r p_pos) with (2 := Hv). intros i Hi. rewrite mapply_lc_col, HM. unfold lc. apply cong_sub; [reflexivity|].
      apply cong_eq. apply Zsum_ext. intros. unfold column. ring.
Qed.

(** ** [quotient] *)
Section Quot.
Variables (rnd : Z -> Z) (p : Z) (B M N : basis).
Hypothesis HQ : quot_input rnd p B M N.
Hypothesis HN : (0 < b_dim N)%nat.

Definition join : mat := Mat (nrows (b_coords N)) (cols (b_coords N) ++ cols (b_coords M)).
Notation nn := (b_dim N).
Notation nm := (b_dim M).

Lemma join_ncols : ncols join = (nn + nm)%nat.
Proof.
  destruct HQ as [_ _ _ (_ & _ & M2 & _) (_ & _ & N2 & _) _ _ _ _]. unfold ncols, join. cbn [cols]. rewrite app_length. unfold ncols in *. lia.
Qed.
Lemma join_N i k : (k < nn)%nat -> get join i k = get (b_coords N) i k.
Proof.
  destruct HQ as [_ _ _ _ (_ & _ & N2 & _) _ _ _ _]. intros Hk. unfold get, col, join. cbn [cols]. rewrite app_nth1; auto.
  unfold ncols in N2. lia.
Qed.
Lemma join_M i k : get join i (nn + k) = get (b_coords M) i k.
Proof.
  destruct HQ as [_ _ _ _ (_ & _ & N2 & _) _ _ _ _]. unfold get, col, join. cbn [cols]. unfold ncols in N2. rewrite app_nth2 by lia.
  do 2 f_equal. lia.
Qed.
Lemma join_apply c i : mapply join c i = mapply (b_coords N) c i + mapply (b_coords M) (fun k => c (nn + k)%nat) i.
Proof.
  pose proof join_ncols as E. destruct HQ as [_ _ _ (_ & _ & M2 & _) (_ & _ & N2 & _) _ _ _ _]. unfold mapply. rewrite E, Zsum_app, M2, N2. f_equal.
  - apply Zsum_ext. intros k Hk. rewrite join_N by auto. reflexivity.
  - apply Zsum_ext. intros k Hk. rewrite join_M. reflexivity.
Qed.

Lemma nth_join_bars k : nth (nn + k) (b_bars N ++ b_bars M) (0, 0) = nth k (b_bars M) (0, 0).
Proof.
  destruct HQ as [_ _ _ _ ((_ & N0 & _) & _) _ _ _ _]. rewrite N0. rewrite app_nth2 by lia. f_equal. lia.
Qed.
Lemma nth_join_bars_N k : (k < nn)%nat -> nth k (b_bars N ++ b_bars M) (0, 0) = nth k (b_bars N) (0, 0).
Proof.
  destruct HQ as [_ _ _ _ ((_ & N0 & _) & _) _ _ _ _]. intros H. rewrite app_nth1; auto. lia.
Qed.

Theorem quotient_ok : (0 < nm)%nat -> exists Q Pre, quotient rnd true M N p = Ok Q /\ over Q B /\
  nrows Pre = nm /\ ncols Pre = b_dim Q /\ wf_mat Pre /\ (forall i j, 0 <= get (b_coords Q) i j) /\
  (forall r, quotient_basis p (born_span p (b_bars B) (b_bars M) (b_coords M) r) (born_span p (b_bars B) (b_bars N) (b_coords N) r)
     (b_dim Q) (fun k => mapply (b_coords M) (column Pre k)) (fun k => living (b_bars Q) r k = true)) /\
  (forall k, (k < b_dim Q)%nat -> exists c,
     (forall i, (i < b_dim B)%nat -> cong p (column (b_coords Q) k i) (mapply (b_coords M) (column Pre k) i + mapply (b_coords N) c i)) /\
     ((exists x, In x (b_bars M) /\ snd (nth k (b_bars Q) (0, 0)) = snd x) \/ forall j, c j = 0)) /\
  (forall k, (k < b_dim Q)%nat -> exists c,
     (forall t, c t <> 0 -> (t < b_dim Q)%nat /\ fst (nth t (b_bars Q) (0, 0)) <= fst (nth k (b_bars Q) (0, 0)) /\
        snd (nth k (b_bars Q) (0, 0)) < snd (nth t (b_bars Q) (0, 0))) /\
     born_span p (b_bars B) (b_bars N) (b_coords N) (snd (nth k (b_bars Q) (0, 0)))
       (fun i => mapply (b_coords M) (column Pre k) i - Zsum (b_dim Q) (fun t => c t * mapply (b_coords M) (column Pre t) i))) /\
  (forall k i, (k < b_dim Q)%nat -> (i < b_dim B)%nat -> ~ cong p (mapply (b_coords M) (column Pre k) i) 0 ->
     fst (nth i (b_bars B) (0, 0)) <= fst (nth k (b_bars Q) (0, 0))) /\
  ((forall B' F1 oB A' F2 oA, order_B rnd B join = Ok (B', F1, oB) ->
      order_A rnd (Basis (b_bars N ++ b_bars M) false (length (b_bars N ++ b_bars M)) None no_coords false None None) F1 nn = Ok (A', F2, oA) ->
      unit_tail p F2 nn (lo A') (hi A') (lo B') (hi B')) ->
   forall k, (k < b_dim Q)%nat -> (forall i, (i < b_dim B)%nat -> cong p (column (b_coords Q) k i) (mapply (b_coords M) (column Pre k) i)) /\
     born_span p (b_bars B) (b_bars N) (b_coords N) (snd (nth k (b_bars Q) (0, 0))) (mapply (b_coords M) (column Pre k))).
Proof.
  intros Hpos. pose proof HQ as [Hp HB Hbrk (HMb & M1 & M2 & M3 & M4) (HNb & N1 & N2 & N3 & N4) Hprev Hmor Hborn Hrnd].
  pose proof HMb as (_ & M0 & Mne). pose proof HNb as (_ & N0 & Nne). pose proof HB as (_ & B0 & _).
  unfold quotient. destruct (Nat.eqb_spec (b_dim N) 0) as [E|_]; [lia|]. cbn [negb]. unfold plain_basis.
  rewrite mk_plain by (intros x Hx; apply in_app_or in Hx; destruct Hx; auto). cbn [bind]. rewrite Hprev.
  set (A := Basis (b_bars N ++ b_bars M) false (length (b_bars N ++ b_bars M)) None no_coords false None None).
  assert (LA : b_dim A = (nn + nm)%nat) by (unfold A; cbn [b_dim]; rewrite app_length; lia).
  fold join.
  destruct (image_kernel_rel rnd p A B join nn) as (Q & Pre & E & OQ & R1 & R2 & R3 & R4 & R5 & R6 & R7 & R8 & R9 & R10); auto.
  { unfold bars_ok, A. cbn [b_flat b_dim b_bars]. split; auto. split; auto. intros x Hx. apply in_app_or in Hx. destruct Hx; auto. }
  { rewrite join_ncols. auto. }
  { unfold wf_mat, join. cbn [nrows cols]. apply Forall_app. split; auto. rewrite N1, <- M1. auto. }
  { intros i j. destruct (lt_dec j nn) as [Hj|Hj]; [rewrite join_N by auto; auto|]. replace j with (nn + (j - nn))%nat by lia. rewrite join_M. auto. }
  { rewrite join_ncols. lia. }
  { unfold A. cbn [b_bars]. rewrite N0. rewrite skipn_app, skipn_all, Nat.sub_diag. exact Hrnd. }
  { intros i j Hi Hj Hn. unfold A. cbn [b_bars]. rewrite join_ncols in Hj. unfold join in Hi. cbn [nrows] in Hi.
    destruct (lt_dec j nn) as [Hjn|Hjn].
    - rewrite nth_join_bars_N by auto. rewrite join_N in Hn by auto. apply Hborn; auto. lia.
    - replace j with (nn + (j - nn))%nat in * by lia. rewrite nth_join_bars. rewrite join_M in Hn. apply Hmor; auto; lia. }
  { intros i j Hi Hj Hn. unfold A. cbn [b_bars]. rewrite join_ncols in Hj. unfold join in Hi. cbn [nrows] in Hi.
    replace j with (nn + (j - nn))%nat in * by lia. rewrite nth_join_bars. rewrite join_M in Hn. apply Hmor; auto; lia. }
  rewrite join_ncols in *. rewrite E. cbn [bind]. replace (nn + nm - nn)%nat with nm in R1 by lia.
  exists Q, Pre. split; [reflexivity|]. split; [exact OQ|]. split; [exact R1|]. split; [exact R2|]. split; [exact R3|]. split; [exact R4|].
  assert (Hpre : forall k i, mapply join (spre nn Pre k) i = mapply (b_coords M) (column Pre k) i).
  { intros k i. rewrite join_apply. replace (mapply (b_coords N) (spre nn Pre k) i) with 0.
    - rewrite Z.add_0_l. apply mapply_ext. intros j Hj. unfold spre. destruct (Nat.ltb_spec (nn + j) nn); [lia|]. f_equal. lia.
    - symmetry. unfold mapply. apply Zsum_0. intros j Hj. rewrite N2 in Hj. unfold spre. destruct (Nat.ltb_spec j nn); [ring|lia]. }
  assert (HcN : forall r v, cspan p A B join 0 nn r v <-> born_span p (b_bars B) (b_bars N) (b_coords N) r v).
  { intros r v. unfold cspan, born_span. split.
      * intros (c & Hc & Hv). exists c. split.
        -- intros k Hk. destruct (Hc _ Hk) as [H1 H2]. unfold A in H2. cbn [b_bars] in H2. rewrite nth_join_bars_N in H2 by lia. split; auto. lia.
        -- intros i Hi. etransitivity; [|exact (Hv i Hi)]. cbn beta. f_equal. f_equal. rewrite join_apply. replace (mapply (b_coords M) _ i) with 0; [ring|].
           symmetry. unfold mapply. apply Zsum_0. intros j Hj. destruct (Z.eq_dec (c (nn + j)%nat) 0) as [->|Hn]; [ring|].
           apply Hc in Hn. lia.
      * intros (c & Hc & Hv). exists c. split.
        -- intros j Hj. destruct (Hc _ Hj) as [H1 H2]. unfold A. cbn [b_bars]. rewrite nth_join_bars_N by lia. split; auto. lia.
        -- intros i Hi. etransitivity; [|exact (Hv i Hi)]. cbn beta. f_equal. f_equal. rewrite join_apply. replace (mapply (b_coords M) _ i) with 0; [ring|].
           symmetry. unfold mapply. apply Zsum_0. intros j Hj. destruct (Z.eq_dec (c (nn + j)%nat) 0) as [->|Hn]; [ring|].
           apply Hc in Hn. lia. }
  split; [|split; [|split; [|split]]].
  - intros r. specialize (R5 r).
    apply (quotient_basis_ext p _ _ (born_span p (b_bars B) (b_bars M) (b_coords M) r) (born_span p (b_bars B) (b_bars N) (b_coords N) r)) in R5.
    + destruct R5 as (Q1 & Q2 & Q3).
      assert (X : forall c i, Zsum (b_dim Q) (fun k => c k * mapply (b_coords M) (column Pre k) i) = Zsum (b_dim Q) (fun k => c k * mapply join (spre nn Pre k) i)).
      { intros c i. apply Zsum_ext. intros k Hk. rewrite Hpre. reflexivity. }
      split; [|split].
      * intros k Hk Ha. destruct (Q1 k Hk Ha) as (c & Hc & Hv). exists c. split; auto. intros i Hi. rewrite <- (Hpre k i). apply Hv. auto.
      * intros v Hv. destruct (Q2 v Hv) as (c & Hc & d & Hd & Hu). exists c. split; auto. exists d. split; auto. intros i Hi. rewrite X. apply Hu. auto.
      * intros c Hc (d & Hd & Hv). apply Q3; auto. exists d. split; auto. intros i Hi. rewrite <- X. apply Hv. auto.
    + intros v. unfold cspan, born_span. split.
      * intros (c & Hc & Hv). exists (fun k => c (nn + k)%nat). split.
        -- intros k Hk. destruct (Hc _ Hk) as [H1 H2]. unfold A in H2. cbn [b_bars] in H2. rewrite nth_join_bars in H2. split; auto. lia.
        -- intros i Hi. etransitivity; [|exact (Hv i Hi)]. cbn beta. f_equal. f_equal. rewrite join_apply. replace (mapply (b_coords N) c i) with 0; [ring|].
           symmetry. unfold mapply. apply Zsum_0. intros j Hj. rewrite N2 in Hj. destruct (Z.eq_dec (c j) 0) as [->|Hn]; [ring|].
           apply Hc in Hn. lia.
      * intros (c & Hc & Hv). exists (fun j => if Nat.ltb j nn then 0 else c (j - nn)%nat). split.
        -- intros j Hj. destruct (Nat.ltb_spec j nn) as [|Hjn]; [lia|]. destruct (Hc _ Hj) as [H1 H2]. unfold A. cbn [b_bars].
           replace j with (nn + (j - nn))%nat by lia. rewrite nth_join_bars. split; [lia|]. auto.
        -- intros i Hi. etransitivity; [|exact (Hv i Hi)]. cbn beta. f_equal. f_equal. rewrite join_apply.
           transitivity (0 + mapply (b_coords M) c i); [|ring]. f_equal.
           ++ unfold mapply. apply Zsum_0. intros j Hj. cbn beta. rewrite N2 in Hj. destruct (Nat.ltb_spec j nn); [ring|lia].
           ++ apply mapply_ext. intros j Hj. cbn beta. destruct (Nat.ltb_spec (nn + j) nn); [lia|]. f_equal. lia.
    + intros v. apply HcN.
  - intros k Hk. destruct (R6 k Hk) as (c & Hc & Hv & Hd). exists c. split.
    + intros i Hi. rewrite (Hv i) by (unfold join; cbn [nrows]; lia). rewrite Hpre. apply cong_eq. f_equal. rewrite join_apply.
      replace (mapply (b_coords M) _ i) with 0; [ring|]. symmetry. unfold mapply. apply Zsum_0. intros j Hj.
      destruct (Z.eq_dec (c (nn + j)%nat) 0) as [->|Hn]; [ring|]. apply Hc in Hn. lia.
    + destruct Hd as [(j & Hj & Ej)|Hd]; [left|right; auto]. rewrite Ej. unfold A. cbn [b_bars]. replace j with (nn + (j - nn))%nat by lia.
      rewrite nth_join_bars. eexists. split; [|reflexivity]. apply nth_In. lia.
  - intros k Hk. destruct (R8 k Hk) as (c & Hc & Hv). exists c. split; auto. apply HcN. destruct Hv as (d & Hd & Hu). exists d. split; auto.
    intros i Hi. rewrite <- (Hu i Hi). rewrite Hpre. do 3 f_equal. apply Zsum_ext. intros t Ht. rewrite Hpre. reflexivity.
  - intros k i Hk Hi Hn. apply R9; auto. unfold join. cbn [nrows]. lia. rewrite Hpre. auto.
  - intros HU k Hk. destruct (R10 HU k Hk) as [U1 U2]. split.
    + intros i Hi. rewrite (U1 i) by (unfold join; cbn [nrows]; lia). rewrite Hpre. reflexivity.
    + apply HcN. destruct U2 as (c & Hc & Hv). exists c. split; auto. intros i Hi. rewrite <- (Hpre k i). apply Hv. auto.
Qed.

(** A zero module modulo a family which is not empty raises [UnboundLocalError]. *)
Lemma quotient_zero : nm = 0%nat -> quotient rnd true M N p = Err UnboundLocalError.
Proof.
  intros H0. pose proof HQ as [Hp HB Hbrk (HMb & M1 & M2 & M3 & M4) (HNb & N1 & N2 & N3 & N4) Hprev Hmor Hborn Hrnd].
  pose proof HMb as (_ & M0 & Mne). pose proof HNb as (_ & N0 & Nne). pose proof HB as (_ & B0 & _).
  unfold quotient. destruct (Nat.eqb_spec (b_dim N) 0) as [E|_]; [lia|]. cbn [negb]. unfold plain_basis.
  rewrite mk_plain by (intros x Hx; apply in_app_or in Hx; destruct Hx; auto). cbn [bind]. rewrite Hprev.
  set (A := Basis (b_bars N ++ b_bars M) false (length (b_bars N ++ b_bars M)) None no_coords false None None).
  assert (LA : b_dim A = (nn + nm)%nat) by (unfold A; cbn [b_dim]; rewrite app_length; lia).
  fold join. replace nn with (ncols join) by (rewrite join_ncols; lia).
  rewrite (image_kernel_rel_empty rnd p A B join); auto.
  { unfold bars_ok, A. cbn [b_flat b_dim b_bars]. split; auto. split; auto. intros x Hx. apply in_app_or in Hx. destruct Hx; auto. }
  { rewrite join_ncols. auto. }
  { unfold wf_mat, join. cbn [nrows cols]. apply Forall_app. split; auto. rewrite N1, <- M1. auto. }
  { intros i j. destruct (lt_dec j nn) as [Hj|Hj]; [rewrite join_N by auto; auto|]. replace j with (nn + (j - nn))%nat by lia. rewrite join_M. auto. }
  { rewrite join_ncols. lia. }
  { intros i j Hi Hj Hn. unfold A. cbn [b_bars]. rewrite join_ncols in Hj. unfold join in Hi. cbn [nrows] in Hi.
    rewrite nth_join_bars_N by lia. rewrite join_N in Hn by lia. apply Hborn; auto; lia. }
Qed.
End Quot.
