(** * [module_persistence_homology] *)
From Verif Require Import Base ListX SortX Lin Gauss_model Gauss_arith Gauss_col Gauss_bar Basis_model Basis_props PH_model IK_model IK_pivot IK_lin IK_phase IK_kphase IK_inv IK_loop IK_rel IK_rloop IK_post IK_abs IK_unit IK_relabs IK_quot Spec_PH Spec_IK.
From Verif Require PH_loop.
From Coq Require Import Znumtheory Sorting.Sorted Sorting.Permutation.
Local Open Scope Z_scope.

(** ** Subspaces containing the vectors which vanish at [r] *)
Definition subspace (p : Z) (B : list (Z * Z)) (r : Z) (S : (nat -> Z) -> Prop) : Prop :=
  (forall u v, null_at p B r (fun i => u i - v i) -> S u -> S v) /\
  (forall N c (W : nat -> nat -> Z), (forall k, (k < N)%nat -> c k = 0 \/ S (W k)) -> S (lc N c W)).

Lemma sub_null p B r S u : 0 < p -> subspace p B r S -> null_at p B r u -> S u.
Proof.
  intros Hp [H1 H2] Hu. apply (H1 (lc 0 (fun _ => 0) (fun _ _ => 0))).
  - apply (null_0 p B r Hp). intros i Hi. unfold lc, Zsum. cbn. rewrite (null_use p B r Hp u i Hu Hi). reflexivity.
  - apply H2. intros; lia.
Qed.

Lemma ker_at_sub p A B F r : 0 < p -> ncols F = length A -> subspace p A r (ker_at p A B F r).
Proof.
  intros Hp HF. split.
  - intros u v Hn Hu. unfold ker_at in *. apply (null_cong p B r Hp) with (2 := Hu). intros i Hi. apply mapply_cong. intros j Hj.
    unfold restr. destruct (living A r j) eqn:E; [|reflexivity]. pose proof (null_use p A r Hp _ j Hn E) as X. cbn beta in X.
    destruct X as [q Hq]. exists q. lia.
  - intros N c W HW. unfold ker_at in *. apply (null_cong p B r Hp) with (u := lc N c (fun k => mapply F (restr A r (W k)))).
    + intros i Hi. rewrite <- mapply_lc. apply mapply_cong. intros j Hj. unfold restr, lc. destruct (living A r j); [reflexivity|].
      apply cong_eq. apply Zsum_0. intros; ring.
    + apply (null_lc p B r Hp). auto.
Qed.

Lemma im_at_sub p A B F r : 0 < p -> subspace p B r (im_at p A B F r).
Proof.
  intros Hp. split.
  - intros u v Hn (x & Hx). exists x. apply (null_0 p B r Hp). intros i Hi.
    pose proof (null_use p B r Hp _ i Hn Hi) as X. pose proof (null_use p B r Hp _ i Hx Hi) as Y. cbn beta in X, Y.
    destruct X as [q Hq], Y as [q' Hq']. exists (q' - q). lia.
  - intros N c W HW.
    destruct (fin_choose (fun _ : nat => 0) N (fun k x => c k = 0 \/ null_at p B r (fun i => W k i - mapply F (restr A r x) i))) as (X & HX).
    { intros k Hk. destruct (HW k Hk) as [E|(x & Hx)]; [exists (fun _ => 0)|exists x]; auto. }
    exists (lc N c X). apply (null_cong p B r Hp) with (u := lc N c (fun k i => W k i - mapply F (restr A r (X k)) i)).
    + intros i Hi. apply cong_eq.
      assert (E : mapply F (restr A r (lc N c X)) i = lc N c (fun k => mapply F (restr A r (X k))) i).
      { rewrite <- mapply_lc. apply mapply_ext. intros j Hj. unfold restr, lc. destruct (living A r j); [reflexivity|].
        symmetry. apply Zsum_0. intros; ring. }
      rewrite E. unfold lc. rewrite <- Zsum_sub. apply Zsum_ext. intros; ring.
    + apply (null_lc p B r Hp). auto.
Qed.

Lemma all_sub p B r : subspace p B r (fun _ => True).
Proof. split; auto. Qed.

(** ** Kernels and images as families of generators *)
Definition kern_ok (rnd : Z -> Z) (p : Z) (B K : basis) (Zr : Z -> (nat -> Z) -> Prop) : Prop :=
  over K B /\ (forall i j, 0 <= get (b_coords K) i j) /\ morphism p (b_bars K) (b_bars B) (b_coords K) /\ rnd_faithful rnd (b_bars K) /\
  forall r, quotient_basis p (Zr r) (null_at p (b_bars B) r) (b_dim K) (column (b_coords K)) (fun k => living (b_bars K) r k = true).

Definition good_im (p : Z) (A : list (Z * Z)) (B I : basis) (Br : Z -> (nat -> Z) -> Prop) : Prop :=
  (b_dim I = 0%nat /\ forall r v, Br r v <-> null_at p (b_bars B) r v) \/
  ((0 < b_dim I)%nat /\ coords_ok I B /\
   (forall i k, (i < b_dim B)%nat -> (k < b_dim I)%nat -> get (b_coords I) i k mod p <> 0 ->
     fst (nth i (b_bars B) (0, 0)) <= fst (nth k (b_bars I) (0, 0))) /\
   (forall r v, born_span p (b_bars B) (b_bars I) (b_coords I) r v <-> Br r v) /\
   (forall x, In x (b_bars I) -> exists y, In y A /\ fst x = fst y) /\
   ((forall r v, Br r v -> null_at p (b_bars B) r v) -> False)).

(** A class whose bar ends is then a combination of classes which are not younger and live on; entries of generators which
    are not born yet vanish. *)
Definition elder (p : Z) (B : basis) (n : nat) (bars : list (Z * Z)) (Br : Z -> (nat -> Z) -> Prop) (g : nat -> nat -> Z) : Prop :=
  (forall k, (k < n)%nat -> exists c,
     (forall t, c t <> 0 -> (t < n)%nat /\ fst (nth t bars (0, 0)) <= fst (nth k bars (0, 0)) /\ snd (nth k bars (0, 0)) < snd (nth t bars (0, 0))) /\
     Br (snd (nth k bars (0, 0))) (fun i => g k i - Zsum n (fun t => c t * g t i))) /\
  (forall k i, (k < n)%nat -> (i < b_dim B)%nat -> ~ cong p (g k i) 0 -> fst (nth i (b_bars B) (0, 0)) <= fst (nth k bars (0, 0))).

Definition good_hom (p : Z) (A : list (Z * Z)) (B H : basis) (Zr Br : Z -> (nat -> Z) -> Prop) : Prop :=
  ((0 < b_dim B)%nat -> over H B) /\ exists g, (forall r,
    quotient_basis p (Zr r) (Br r) (b_dim H) g (fun k => living (b_bars H) r k = true) /\
    ((forall y, In y A -> fst y <= r) -> forall k, (k < b_dim H)%nat -> Br r (fun i => column (b_coords H) k i - g k i))) /\
  elder p B (b_dim H) (b_bars H) Br g.

(** The stronger statement: the returned columns themselves are the generators, and each of them vanishes at the end of its
    bar. *)
Definition exact_hom (p : Z) (B H : basis) (Zr Br : Z -> (nat -> Z) -> Prop) : Prop :=
  over H B /\
  (forall r, quotient_basis p (Zr r) (Br r) (b_dim H) (column (b_coords H)) (fun k => living (b_bars H) r k = true)) /\
  (forall k, (k < b_dim H)%nat -> Br (snd (nth k (b_bars H) (0, 0))) (column (b_coords H) k)) /\
  (forall k i, (k < b_dim H)%nat -> (i < b_dim B)%nat -> ~ cong p (column (b_coords H) k i) 0 ->
     fst (nth i (b_bars B) (0, 0)) <= fst (nth k (b_bars H) (0, 0))).

Lemma over_coords b B : over b B -> (forall i j, 0 <= get (b_coords b) i j) -> coords_ok b B.
Proof. intros (H1 & _ & _ & _ & H2 & H3 & H4) Hn. repeat split; auto; apply H1. Qed.

Lemma kern_span rnd p B K Zr r v : prime p -> kern_ok rnd p B K Zr -> subspace p (b_bars B) r (Zr r) ->
  (born_span p (b_bars B) (b_bars K) (b_coords K) r v <-> Zr r v).
Proof.
  intros Hp (OK & _ & Hmor & _ & HQ) Hsub. assert (p_pos : 0 < p) by (destruct Hp; lia).
  destruct OK as ((_ & K0 & _) & _ & _ & _ & _ & K2 & _). destruct (HQ r) as (Q1 & Q2 & _). split.
  - intros (c & Hc & Hv). apply (proj1 Hsub (lc (b_dim K) c (column (b_coords K)))).
    + apply (null_0 p _ r p_pos). intros i Hi. pose proof (null_use p _ r p_pos _ i Hv Hi) as X. cbn beta in X.
      rewrite mapply_lc_col, K2 in X. destruct X as [q Hq]. exists (- q). lia.
    + apply Hsub. intros k Hk. destruct (Z.eq_dec (c k) 0) as [|Hn]; [auto|right]. destruct (Hc k Hn) as [Hl Hb].
      destruct (living (b_bars K) r k) eqn:E; [apply Q1; auto|]. apply (sub_null p (b_bars B) r); auto.
      apply (dead_null p (b_bars B) (b_bars K)); auto. destruct (Z_le_gt_dec (snd (nth k (b_bars K) (0, 0))) r); auto.
      assert (living (b_bars K) r k = true); [apply living_iff; lia|congruence].
  - intros Hv. destruct (Q2 v Hv) as (c & Hc & Hn). exists c. split.
    + intros k Hk. destruct (living (b_bars K) r k) eqn:E; [apply living_iff in E; lia|]. elim Hk. apply Hc. congruence.
    + apply (null_cong p _ r p_pos) with (2 := Hn). intros i Hi. rewrite mapply_lc_col, K2. reflexivity.
Qed.

(** The two bases returned by [image_kernel]. *)
Lemma image_kernel_good rnd p A B F : ik_input rnd p A B F -> rnd_apart rnd (endpoints (b_bars A ++ b_bars B)) ->
  exists I K Pre, image_kernel rnd A B F p 0 = Ok (I, Some K, Pre) /\
    kern_ok rnd p A K (ker_at p (b_bars A) (b_bars B) F) /\ good_im p (b_bars A) B I (im_at p (b_bars A) (b_bars B) F).
Proof.
  intros HIn Hrnd. destruct (image_kernel_abs rnd p A B F HIn) as (I & K & Pre & E & OI & OK & _ & _ & HK & HI & HIb & Hcalm & NI & NK & BI & MK & EK & EI & EN).
  pose proof HIn as [Hp HA HB Hbrk Hrows Hcols Hwf Hnn Hmor Hpos Hdom]. assert (p_pos : 0 < p) by (destruct Hp; lia).
  exists I, K, Pre. split; auto. split.
  - split; auto. split; [intros i j; apply NK|]. split; auto. split; auto.
    intros x y Hx Hy. apply Hrnd.
    + unfold endpoints. destruct (EK x Hx) as (z & Hz & [->| ->]); apply in_or_app; [left|right]; apply in_map; auto.
    + unfold endpoints. destruct (EK y Hy) as (z & Hz & [->| ->]); apply in_or_app; [left|right]; apply in_map; auto.
  - pose proof OI as ((_ & I0 & _) & _ & _ & _ & _ & I2 & _).
    assert (Hsp : forall r v, born_span p (b_bars B) (b_bars I) (b_coords I) r v <-> im_at p (b_bars A) (b_bars B) F r v).
    { intros r v. pose proof (im_at_sub p (b_bars A) (b_bars B) F r p_pos) as Hsub. split.
      - intros (c & Hc & Hv). apply (proj1 Hsub (lc (b_dim I) c (column (b_coords I)))).
        + apply (null_0 p _ r p_pos). intros i Hi. pose proof (null_use p _ r p_pos _ i Hv Hi) as X. cbn beta in X.
          rewrite mapply_lc_col, I2 in X. destruct X as [q Hq]. exists (- q). lia.
        + apply Hsub. intros k Hk. destruct (Z.eq_dec (c k) 0) as [|Hn]; [auto|right]. destruct (Hc k Hn) as [Hl Hb]. apply HIb; auto.
      - intros Hv. destruct (HI r) as (_ & Q2 & _). destruct (Q2 v Hv) as (c & Hc & Hn). exists c. split.
        + intros k Hk. destruct (living (b_bars I) r k) eqn:El; [apply living_iff in El; lia|]. elim Hk. apply Hc. intros [X _]. congruence.
        + apply (null_cong p _ r p_pos) with (2 := Hn). intros i Hi. rewrite mapply_lc_col, I2. reflexivity. }
    destruct (Nat.eq_dec (b_dim I) 0) as [Z|Z]; [left|right].
    + split; auto. intros r v. rewrite <- Hsp. split.
      * intros (c & Hc & Hv). apply (null_cong p _ r p_pos) with (2 := Hv). intros i Hi. unfold mapply. rewrite I2, Z. cbn. apply cong_eq. ring.
      * intros Hv. exists (fun _ => 0). split; [intros k Hk; elim Hk; reflexivity|]. apply (null_cong p _ r p_pos) with (2 := Hv). intros i Hi. unfold mapply. rewrite I2, Z. cbn. apply cong_eq. ring.
    + split; [lia|]. split; [apply over_coords; auto; intros i j; apply NI|]. split; [intros i k Hi Hk; apply BI; auto|]. split; [exact Hsp|]. split; [exact EI|].
      intros Hall. apply Z, EN, Hall.
Qed.

Lemma exact_ker rnd p B K Zr Br : 0 < p -> bars_ok B -> kern_ok rnd p B K Zr -> (forall r v, Br r v <-> null_at p (b_bars B) r v) -> exact_hom p B K Zr Br.
Proof.
  intros p_pos HB HK HI. pose proof HK as (OK & _ & MK & _ & HQ). pose proof OK as ((_ & K0 & _) & _). pose proof HB as (_ & B0 & _).
  split; auto. split; [|split].
  - intros r. specialize (HQ r). apply (quotient_basis_ext p _ _ (Zr r) (Br r)) in HQ; [exact HQ|reflexivity|]. intros v. symmetry. apply HI.
  - intros k Hk. rewrite K0 in Hk. apply HI. apply (dead_null p (b_bars B) _ _ _ k MK Hk (Z.le_refl _)).
  - intros k i Hk Hi Hn. apply (MK i k); [lia|lia|]. intros X. apply Hn. apply mod_cong; auto.
Qed.

(** One quotient. *)
Lemma hom_lemma rnd p A B K I Zr Br : prime p -> bars_ok B -> b_brk B = None ->
  kern_ok rnd p B K Zr -> (forall r, subspace p (b_bars B) r (Zr r)) -> good_im p A B I Br -> (forall r, subspace p (b_bars B) r (Br r)) ->
  (exists H, quotient rnd true K I p = Ok H /\ good_hom p A B H Zr Br /\ (b_dim I = 0%nat -> exact_hom p B H Zr Br)) \/
  (quotient rnd true K I p = Err UnboundLocalError /\ b_dim K = 0%nat /\ (0 < b_dim I)%nat).
Proof.
  intros Hp HB Hbrk HK HZ HI HBr. assert (p_pos : 0 < p) by (destruct Hp; lia).
  destruct HI as [[I0 HI]|(Ipos & CI & BI & SI & EI & _)].
  - left. exists K. unfold quotient. rewrite I0. split; [reflexivity|]. pose proof HK as (OK & _ & _ & _ & HQ).
    split; [|intros _; apply (exact_ker rnd); auto]. split; auto.
    exists (column (b_coords K)). split; [intros r; split|].
    + specialize (HQ r). apply (quotient_basis_ext p _ _ (Zr r) (Br r)) in HQ; [exact HQ|reflexivity|]. intros v. symmetry. apply HI.
    + intros _ k Hk. apply HI. apply (null_0 p _ r p_pos). intros i Hi. apply cong_eq. ring.
    + pose proof HK as (_ & _ & MK & _). pose proof OK as ((_ & K0 & _) & _). pose proof HB as (_ & B0 & _). split.
      * intros k Hk. exists (fun _ => 0). split; [intros t Ht; lia|]. apply HI. rewrite K0 in Hk.
        pose proof (dead_null p (b_bars B) _ _ _ k MK Hk (Z.le_refl _)) as X. apply (null_cong p _ _ p_pos) with (2 := X).
        intros i Hi. rewrite Zsum_0 by (intros; ring). apply cong_eq. ring.
      * intros k i Hk Hi Hn. apply (MK i k); [lia|lia|]. intros X. apply Hn. apply mod_cong; auto.
  - pose proof HK as (OK & NK & MK & RK & _).
    assert (HQ : quot_input rnd p B K I) by (constructor; auto; [apply over_coords; auto|apply OK]).
    destruct (Nat.eq_dec (b_dim K) 0) as [Z|Z]; [right; split; [apply (quotient_zero rnd p B); auto|auto]|left].
    destruct (quotient_ok rnd p B K I HQ Ipos ltac:(lia)) as (H & Pre & E & OH & R1 & R2 & R3 & R4 & R5 & R6 & R7 & R8 & _).
    exists H. split; auto. split; [|lia]. split; auto. exists (fun k => mapply (b_coords K) (column Pre k)). split; [intros r; split|].
    + specialize (R5 r). apply (quotient_basis_ext p _ _ (Zr r) (Br r)) in R5; auto. intros v. apply (kern_span rnd); auto.
    + intros Hr k Hk. destruct (R6 k Hk) as (c & Hc & _). apply SI. pose proof CI as ((_ & I0 & _) & _ & I2 & _).
      exists (fun j => if Nat.ltb j (b_dim I) then c j else 0). split.
      * intros j Hj. destruct (Nat.ltb_spec j (b_dim I)) as [Hlt|]; [|lia]. split; [lia|].
        destruct (EI (nth j (b_bars I) (0, 0))) as (y & Hy & ->); [apply nth_In; lia|]. auto.
      * apply (null_0 p _ r p_pos). intros i Hi. apply living_iff in Hi. destruct HB as (_ & B0 & _). rewrite <- B0 in Hi. rewrite (Hc i) by tauto.
        rewrite (mapply_ext (b_coords I) (fun j => if Nat.ltb j (b_dim I) then c j else 0) c).
        -- apply cong_eq. ring.
        -- intros j Hj. rewrite I2 in Hj. destruct (Nat.ltb_spec j (b_dim I)); [reflexivity|lia].
    + split; [|exact R8]. intros k Hk. destruct (R7 k Hk) as (c & Hc & Hv). exists c. split; auto. apply SI. auto.
Qed.

(** ** Degree 0 *)
Lemma mident_get n i j : (j < n)%nat -> get (mident n) i j = funit j i.
Proof. intros H. unfold get. rewrite nth_cols_mident by auto. apply vget_vunit. auto. Qed.

Lemma identity_kernel rnd p B : prime p -> bars_ok B -> (0 < b_dim B)%nat -> rnd_faithful rnd (b_bars B) ->
  exists b K o, mk_basis false (b_bars B) (Some B) (mident (b_dim B)) false false None = Ok b /\ b_sort rnd b = Ok (K, o) /\
    kern_ok rnd p B K (fun _ _ => True) /\ b_dim K = b_dim B /\
    b_bars K = map (fun k => nth k (b_bars B) (0, 0)) (sort_order rnd (b_bars B)) /\
    forall t i, (t < b_dim B)%nat -> get (b_coords K) i t = funit (nth t (sort_order rnd (b_bars B)) 0%nat) i.
Proof.
  intros Hp HB Hpos Hrnd. pose proof HB as (Bf & B0 & Bne). assert (p_pos : 0 < p) by (destruct Hp; lia).
  assert (Lm : ncols (mident (b_dim B)) = b_dim B) by (unfold ncols, mident; cbn [cols]; rewrite map_length, seq_length; auto).
  assert (Wm : wf_mat (mident (b_dim B))).
  { unfold wf_mat, mident. cbn [cols nrows]. apply Forall_forall. intros c Hc. apply in_map_iff in Hc. destruct Hc as (j & <- & _). apply vunit_length. }
  destruct (post_spec rnd (b_bars B) B (mident (b_dim B)) false) as (b & K & o & l & P1 & P2 & P3 & [Snd Sin] & P5 & P6 & P7 & P8 & P9 & P10 & P11 & P12 & P13 & _); auto; try congruence.
  exists b, K, o. split; auto. split; auto.
  assert (Hin : forall k, (k < length (b_bars B))%nat -> In k l).
  { intros k Hk. apply Sin. split; auto. apply Bne. apply nth_In. auto. }
  assert (Hl : forall t, (t < length l)%nat -> (nth t l 0 < b_dim B)%nat).
  { intros t Ht. rewrite B0. apply (Sin (nth t l 0%nat)). apply nth_In. auto. }
  assert (Hcol : forall t i, (t < length l)%nat -> get (b_coords K) i t = funit (nth t l 0%nat) i).
  { intros t i Ht. rewrite P8. unfold get. rewrite nth_take_cols by auto. rewrite nth_cols_mident by auto. apply vget_vunit. auto. }
  assert (HbK : forall t, (t < length l)%nat -> nth t (b_bars K) (0, 0) = nth (nth t l 0%nat) (b_bars B) (0, 0)).
  { intros t Ht. rewrite P7. rewrite (nth_map _ _ _ 0%nat) by auto. reflexivity. }
  assert (LK : length (b_bars K) = length l) by (rewrite P7; apply map_length).
  assert (Ll : length l = b_dim B).
  { rewrite B0. rewrite <- (seq_length (length (b_bars B)) 0). apply Permutation_length. apply NoDup_Permutation; auto; [apply seq_NoDup|].
    intros k. rewrite in_seq. split; [intros Hk; apply Sin in Hk; lia|intros Hk; apply Hin; lia]. }
  assert (Hex : b_bars K = map (fun k => nth k (b_bars B) (0, 0)) (sort_order rnd (b_bars B)) /\
    forall t i, (t < b_dim B)%nat -> get (b_coords K) i t = funit (nth t (sort_order rnd (b_bars B)) 0%nat) i).
  { assert (Eb : b_bars b = b_bars B /\ b_coords b = mident (b_dim B) /\ b_prev b = Some B /\ b_flat b = false).
    { assert (Hw : forall x, In x (well_defined (b_bars B)) -> x = true).
      { intros x Hx. unfold well_defined in Hx. apply in_map_iff in Hx. destruct Hx as (y & <- & Hy). apply Z.ltb_lt. auto. }
      assert (Lw : length (well_defined (b_bars B)) = b_dim B) by (unfold well_defined; rewrite map_length; auto).
      revert P1. unfold mk_basis, mk_coords. rewrite Lm. destruct (Nat.eqb_spec (length (b_bars B)) 0) as [|]; [lia|]. destruct (Nat.ltb_spec 0 (b_dim B)); [|lia].
      rewrite <- B0. cbn [nrows mident]. rewrite !Nat.eqb_refl. cbn [negb andb bind mk_brk].
      rewrite (PH_loop.mask_all _ (b_bars B)) by (auto; lia). intros E. injection E as <-. cbn [b_bars b_coords b_prev b_flat]. split; auto. split; auto.
      unfold mident. f_equal. apply PH_loop.mask_all; auto. rewrite map_length, seq_length. auto. }
    destruct Eb as (Eb1 & Eb2 & Eb3 & Eb4). revert P2. unfold b_sort. rewrite Eb4, Eb3, Eb2, Eb1.
    rewrite take_cols_err_ok by (intros j Hj; apply sort_order_lt in Hj; lia). cbn [bind]. intros E. injection E as <- _. cbn [b_bars b_coords].
    split; [reflexivity|]. intros t i Ht. unfold get. rewrite nth_take_cols by (rewrite sort_order_length; lia).
    assert (Hlt : (nth t (sort_order rnd (b_bars B)) 0 < b_dim B)%nat).
    { rewrite B0. apply (sort_order_lt rnd (b_bars B)). apply nth_In. rewrite sort_order_length. lia. }
    rewrite nth_cols_mident by auto. apply vget_vunit. auto. }
  split; [|split; [congruence|exact Hex]]. split; [|split; [|split; [|split]]].
  - split; [|rewrite P8; split; auto; split; auto; split; auto; split; [|split]].
    + split; auto. rewrite P9, P7, map_length. split; auto. intros x Hx. apply in_map_iff in Hx. destruct Hx as (k & <- & Hk). apply Sin; auto.
    + reflexivity.
    + unfold ncols, take_cols. cbn [cols]. rewrite map_length. auto.
    + apply take_cols_shape; auto. intros j Hj. apply Sin in Hj. lia.
  - intros i j. destruct (lt_dec j (length l)) as [Hj|Hj].
    + rewrite Hcol by auto. unfold funit. destruct (Nat.eqb i (nth j l 0%nat)); lia.
    + rewrite P8. unfold get, col, take_cols. cbn [cols]. rewrite nth_overflow by (rewrite map_length; lia). rewrite vget_out; cbn; lia.
  - intros i j Hi Hj Hn. rewrite LK in Hj. rewrite Hcol in Hn by auto. unfold funit in Hn. rewrite HbK by auto.
    destruct (Nat.eqb_spec i (nth j l 0%nat)) as [->|]; [lia|]. elim Hn. apply Z.mod_0_l. lia.
  - intros x y Hx Hy. apply Hrnd; rewrite P7 in *.
    + apply in_map_iff in Hx. destruct Hx as (k & <- & Hk). apply Sin in Hk. apply nth_In. tauto.
    + apply in_map_iff in Hy. destruct Hy as (k & <- & Hk). apply Sin in Hk. apply nth_In. tauto.
  - intros r. rewrite P9.
    apply (family_transfer p _ _ (b_dim B) funit (fun i => living (b_bars B) r i = true) l); auto.
    + intros t. destruct (living (b_bars K) r t); [left|right]; auto.
    + intros k Hk. apply Sin in Hk. lia.
    + intros k Hk _. apply Hin. lia.
    + intros u v H. apply (null_cong p _ r p_pos). auto.
    + intros v _. exists (restr (b_bars B) r v). split.
      * intros k Hk Hn. unfold restr in Hn. destruct (living (b_bars B) r k); auto. elim Hn. reflexivity.
      * apply (null_0 p _ r p_pos). intros i Hi. rewrite lc_funit by (apply living_iff in Hi; lia). unfold restr. rewrite Hi. apply cong_eq. ring.
    + intros c Hc Hz k Hk. destruct (cong_dec p (c k) 0) as [|Hn]; auto. pose proof (null_use p _ r p_pos _ k Hz (Hc k Hk Hn)) as X.
      rewrite lc_funit in X by auto. auto.
    + intros t Ht i. apply Hcol. auto.
    + intros t Ht. rewrite !living_iff, LK, HbK by auto. specialize (Hl t Ht). rewrite B0 in Hl. tauto.
Qed.

(** The quotient of everything: the matrix reduced by the code ends in an identity. *)
Lemma exact_unit rnd p A B K I H Br : prime p -> bars_ok B -> b_brk B = None -> b_sorted B = false -> (0 < b_dim B)%nat ->
  kern_ok rnd p B K (fun _ _ => True) -> b_dim K = b_dim B ->
  b_bars K = map (fun k => nth k (b_bars B) (0, 0)) (sort_order rnd (b_bars B)) ->
  (forall t i, (t < b_dim B)%nat -> get (b_coords K) i t = funit (nth t (sort_order rnd (b_bars B)) 0%nat) i) ->
  good_im p A B I Br -> (forall r, subspace p (b_bars B) r (Br r)) -> quotient rnd true K I p = Ok H -> exact_hom p B H (fun _ _ => True) Br.
Proof.
  intros Hp HB Hbrk HsB Hpos HK DK KB KC HI HBr E. assert (p_pos : 0 < p) by (destruct Hp; lia).
  destruct HI as [[I0 HI]|(Ipos & CI & BI & SI & EI & _)].
  { unfold quotient in E. rewrite I0 in E. cbn in E. injection E as <-. apply (exact_ker rnd); auto. }
  pose proof HK as (OK & NK & MK & RK & _).
  assert (HQ : quot_input rnd p B K I) by (constructor; auto; [apply over_coords; auto|apply OK]).
  destruct (quotient_ok rnd p B K I HQ Ipos ltac:(lia)) as (Q & Pre & E' & OH & R1 & R2 & R3 & R4 & R5 & R6 & R7 & R8 & R9).
  rewrite E' in E. injection E as <-.
  destruct HB as (Bf & B0 & Bne). pose proof OK as ((_ & K0 & Kne) & _ & _ & _ & K1 & K2 & K3).
  destruct CI as ((_ & I0 & Ine) & I1 & I2 & I3 & I4).
  set (o := sort_order rnd (b_bars B)) in *.
  assert (Lo : length o = b_dim B) by (unfold o; rewrite sort_order_length; auto).
  assert (Hlt : forall t, (t < b_dim B)%nat -> (nth t o 0 < b_dim B)%nat).
  { intros t Ht. rewrite B0. apply (sort_order_lt rnd (b_bars B)). apply nth_In. fold o. lia. }
  assert (Hnd : NoDup o). { apply (Permutation_NoDup (sort_order_perm rnd (b_bars B))). apply seq_NoDup. }
  assert (U : forall k, (k < b_dim Q)%nat -> (forall i, (i < b_dim B)%nat -> cong p (column (b_coords Q) k i) (mapply (b_coords K) (column Pre k) i)) /\
     born_span p (b_bars B) (b_bars I) (b_coords I) (snd (nth k (b_bars Q) (0, 0))) (mapply (b_coords K) (column Pre k))).
  { apply R9. intros B' F1 oB A' F2 oA EB EA.
    unfold order_B in EB. rewrite HsB, Hbrk, Bf in EB. rewrite mk_plain in EB by auto. cbn [bind] in EB.
    unfold b_sort in EB. cbn [b_flat b_bars b_prev b_coords b_brk b_dim b_wd bind] in EB. fold o in EB.
    unfold take_rows_err in EB. replace (forallb _ o) with true in EB.
    2:{ symmetry. apply forallb_forall. intros i Hi. apply Nat.ltb_lt. unfold join. cbn [nrows]. rewrite I1, B0. apply (sort_order_lt rnd (b_bars B)). auto. }
    cbn [bind] in EB. injection EB as <- <- _.
    unfold order_A in EA. cbn [b_sorted b_flat b_bars] in EA.
    rewrite I0, skipn_app, Nat.sub_diag, skipn_all, firstn_app, Nat.sub_diag, firstn_all in EA. cbn [app skipn firstn] in EA. rewrite app_nil_r in EA.
    rewrite mk_plain in EA by auto. cbn [bind] in EA.
    unfold b_sort in EA. cbn [b_flat b_bars b_prev b_coords b_brk b_dim b_wd bind] in EA.
    assert (Eo : sort_order rnd (b_bars K) = seq 0 (length (b_bars K))) by (rewrite KB; apply resort). rewrite Eo in EA.
    assert (Lj : ncols (take_rows (join K I) o) = (b_dim I + b_dim B)%nat).
    { unfold ncols, take_rows, join. cbn [cols]. rewrite map_length, app_length. fold (ncols (b_coords I)). fold (ncols (b_coords K)). lia. }
    rewrite take_cols_err_ok in EA.
    2:{ intros j Hj. rewrite Lj. apply in_app_or in Hj. destruct Hj as [Hj|Hj]; [apply in_seq in Hj; lia|].
        apply in_map_iff in Hj. destruct Hj as (x & <- & Hx). apply in_seq in Hx. lia. }
    cbn [bind] in EA. unfold take in EA. rewrite map_nth_seq in EA. unfold plain_basis in EA. rewrite mk_plain in EA.
    2:{ intros x Hx. apply in_app_or in Hx. destruct Hx; auto. }
    cbn [bind] in EA. injection EA as <- <- _.
    split; [|].
    - unfold ncols, take_cols, take_rows. cbn [cols nrows]. rewrite map_length, app_length, map_length, !seq_length. lia.
    - unfold take_cols, take_rows. cbn [nrows]. intros j Hj. rewrite Lo in Hj. unfold lo, hi. cbn [b_bars].
      rewrite app_nth2 by lia. replace (b_dim I + j - length (b_bars I))%nat with j by lia.
      rewrite KB. unfold take. split; [reflexivity|]. split; [reflexivity|].
      intros i Hi. rewrite Lo in Hi. apply cong_eq. unfold fF.
      assert (EG : get (take_cols (take_rows (join K I) o) (seq 0 (b_dim I) ++ map (fun i0 => (i0 + b_dim I)%nat) (seq 0 (length (b_bars K))))) i (b_dim I + j) = funit j i).
      { unfold get. rewrite nth_take_cols by (rewrite app_length, map_length, !seq_length; lia).
        rewrite app_nth2 by (rewrite seq_length; lia). rewrite seq_length, Nat.add_comm, Nat.add_sub.
        rewrite (nth_map _ _ _ 0%nat) by (rewrite seq_length; lia). rewrite seq_nth by lia. rewrite Nat.add_0_l.
        rewrite col_take_rows by (unfold ncols, join; cbn [cols]; rewrite app_length; fold (ncols (b_coords I)); fold (ncols (b_coords K)); lia).
        unfold vget at 1. rewrite (nth_map _ _ _ 0%nat) by lia. change (vget (col (join K I) (j + b_dim I)) (nth i o 0%nat)) with (get (join K I) (nth i o 0%nat) (j + b_dim I)).
        rewrite Nat.add_comm. rewrite (join_M rnd p B K I HQ Ipos). rewrite KC by auto. unfold funit.
        destruct (Nat.eqb_spec (nth i o 0%nat) (nth j o 0%nat)) as [Eij|Eij]; destruct (Nat.eqb_spec i j) as [Eij'|Eij']; auto; [|subst; contradiction].
        elim Eij'. apply (proj1 (NoDup_nth o 0%nat) Hnd); auto; lia. }
      rewrite I0 in EG |- *. rewrite KB in EG. exact EG. }
  assert (Hsw : forall r k, (k < b_dim Q)%nat -> Br r (mapply (b_coords K) (column Pre k)) <-> Br r (column (b_coords Q) k)).
  { intros r k Hk. split; apply (proj1 (HBr r)); apply (null_0 p _ r p_pos); intros i Hi; apply living_iff in Hi; rewrite <- B0 in Hi;
      rewrite (proj1 (U k Hk) i) by tauto; apply cong_eq; ring. }
  split; auto. split; [|split].
  - intros r. specialize (R5 r). apply (quotient_basis_ext p _ _ (fun _ => True) (Br r)) in R5; auto.
    2:{ intros v. apply (kern_span rnd p B K (fun _ _ => True)); auto. apply all_sub. }
    assert (Hs : forall c v, Br r (fun i => v i - Zsum (b_dim Q) (fun k => c k * mapply (b_coords K) (column Pre k) i)) ->
                 Br r (fun i => v i - Zsum (b_dim Q) (fun k => c k * column (b_coords Q) k i))).
    { intros c v. apply (proj1 (HBr r)). apply (null_0 p _ r p_pos). intros i Hi. apply living_iff in Hi. rewrite <- B0 in Hi.
      match goal with |- cong p (?a - ?x - (?a - ?y)) 0 => assert (X : cong p x y) end.
      { apply Zsum_cong. intros k Hk. rewrite (proj1 (U k Hk) i) by tauto. reflexivity. }
      rewrite X. apply cong_eq. ring. }
    destruct R5 as (Q1 & Q2 & Q3). split; [auto|split].
    + intros v Hv. destruct (Q2 v Hv) as (c & Hc & Hb). exists c. split; auto.
    + intros c Hc Hb. apply Q3; auto. revert Hb. apply (proj1 (HBr r)). apply (null_0 p _ r p_pos). intros i Hi. apply living_iff in Hi. rewrite <- B0 in Hi.
      match goal with |- cong p (?x - ?y) 0 => assert (X : cong p x y) end.
      { apply Zsum_cong. intros k Hk. rewrite (proj1 (U k Hk) i) by tauto. reflexivity. }
      rewrite X. apply cong_eq. ring.
  - intros k Hk. apply Hsw; auto. apply SI. apply U. auto.
  - intros k i Hk Hi Hn. apply R8; auto. rewrite <- (proj1 (U k Hk) i Hi). auto.
Qed.

(** ** The loop *)
Section Chain.
Variables (rnd : Z -> Z) (p : Z) (D : list mat) (Bs : list basis).
Hypothesis HC : chain_input rnd p D Bs.
Notation Bn d := (nth d Bs empty_basis).
Notation Dn d := (nth d D (Mat 0 [])).

Lemma chain_pos : 0 < p.
Proof. destruct HC as [[Hp _] _ _ _ _]. lia. Qed.

Lemma nth_err_nth {T} (l : list T) k d : (k < length l)%nat -> nth_err l k = Ok (nth k l d).
Proof.
  intros H. unfold nth_err. destruct (nth_error l k) eqn:E.
  - rewrite (nth_error_nth l k d E). reflexivity.
  - apply nth_error_None in E. lia.
Qed.

Lemma cyc_sub d r : (d < length Bs)%nat -> (0 < b_dim (Bn d))%nat -> ~ over_zero Bs d -> subspace p (b_bars (Bn d)) r (cycles_at p D Bs d r).
Proof.
  intros Hd Hpos Ho. destruct d as [|e]; [apply all_sub|]. cbn [cycles_at]. apply ker_at_sub; [apply chain_pos|]. cbn [over_zero] in Ho.
  pose proof (ci_mor _ _ _ _ HC e Hd Hpos ltac:(lia)) as HI. rewrite <- (in_cols _ _ _ _ _ HI). destruct (in_A _ _ _ _ _ HI) as (_ & E & _). auto.
Qed.
Lemma bnd_sub d r : subspace p (b_bars (Bn d)) r (bounds_at p D Bs d r).
Proof. apply im_at_sub, chain_pos. Qed.

(** The image of a zero module. *)
Lemma bounds_zero d : b_bars (Bn (S d)) = [] -> forall r v, bounds_at p D Bs d r v <-> null_at p (b_bars (Bn d)) r v.
Proof.
  intros E r v. unfold bounds_at. rewrite E. pose proof chain_pos as Hp.
  assert (X : forall x i, mapply (Dn (S d)) (restr [] r x) i = 0).
  { intros x i. unfold mapply. apply Zsum_0. intros j Hj. unfold restr. replace (living [] r j) with false; [ring|]. unfold living. destruct j; reflexivity. }
  split.
  - intros (x & Hx). apply (null_cong p _ r Hp) with (2 := Hx). intros i Hi. rewrite X. apply cong_eq. ring.
  - intros Hv. exists (fun _ => 0). apply (null_cong p _ r Hp) with (2 := Hv). intros i Hi. rewrite X. apply cong_eq. ring.
Qed.

Lemma empty_over_ok b : exists e, empty_over b = Ok e /\ b_dim e = 0%nat /\ b_bars e = [].
Proof. unfold empty_over, mk_basis. cbn. eexists. split; [reflexivity|]. split; reflexivity. Qed.

Definition Hgood d H := good_hom p (b_bars (Bn (S d))) (Bn d) H (cycles_at p D Bs d) (bounds_at p D Bs d).
Definition Igood d I := good_im p (b_bars (Bn (S d))) (Bn d) I (bounds_at p D Bs d).
Lemma bnd_zero d : b_bars (Bn d) = [] -> forall r v, bounds_at p D Bs d r v <-> null_at p (b_bars (Bn d)) r v.
Proof.
  intros E r v. unfold bounds_at, im_at. rewrite E. split.
  - intros _ i Hi. unfold living in Hi. destruct i; discriminate.
  - intros _. exists (fun _ => 0). intros i Hi. unfold living in Hi. destruct i; discriminate.
Qed.
Definition Hexact d H := exact_hom p (Bn d) H (cycles_at p D Bs d) (bounds_at p D Bs d).
Definition Hdeg d H := (~ over_zero Bs d -> Hgood d H) /\ (over_zero Bs d -> H = Bn d) /\
  (~ over_zero Bs d -> (0 < b_dim (Bn d))%nat -> (d = 0%nat /\ b_sorted (Bn 0) = false) \/ b_bars (Bn (S d)) = [] -> Hexact d H).

Lemma Igood_zero d I : Igood d I -> b_bars (Bn (S d)) = [] -> b_dim I = 0%nat.
Proof. intros [[X _]|(_ & _ & _ & _ & _ & NI)] E; auto. elim NI. intros r v. apply bounds_zero. auto. Qed.

Lemma zero_hom d H : (d < length Bs)%nat -> b_dim (Bn d) = 0%nat -> b_dim H = 0%nat -> Hgood d H.
Proof.
  intros Hd H0 HH. destruct (ci_base _ _ _ _ HC d Hd) as [_ [[X _]|[_ E]]]; [lia|].
  assert (Hb : forall r v, bounds_at p D Bs d r v).
  { intros r v. unfold bounds_at, im_at. rewrite E. exists (fun _ => 0). intros i Hi. unfold living in Hi. destruct i; discriminate. }
  split; [lia|]. exists (fun _ _ => 0). split; [intros r; split|split; intros; lia].
  - rewrite HH. split; [|split].
    + intros; lia.
    + intros v _. exists (fun _ => 0). split; auto.
    + intros; lia.
  - intros _ k Hk. apply Hb.
Qed.

Lemma mph_step_good d I : (S d < length Bs)%nat -> Igood (S d) I ->
  (exists i h pre, mph_step rnd (Dn (S d)) (Bn (S d)) (Bn d) I p = Ok (i, h, pre) /\ Hdeg (S d) h /\ Igood d i) \/
  (mph_step rnd (Dn (S d)) (Bn (S d)) (Bn d) I p = Err UnboundLocalError /\ ~ is_complex p D Bs).
Proof.
  intros Hd HI. unfold mph_step. destruct (ci_base _ _ _ _ HC (S d) Hd) as [Hbrk Hbase].
  destruct (Nat.eqb_spec (b_dim (Bn (S d))) 0) as [E0|E0].
  - destruct Hbase as [[X _]|[_ Ebars]]; [lia|]. left.
    destruct (empty_over_ok (Bn d)) as (i & -> & Di & _). destruct (empty_over_ok (Bn (S d))) as (h & -> & Dh & _). cbn [bind].
    exists i, h, None. split; [reflexivity|]. split; [split; [intros _; apply zero_hom; auto|cbn [over_zero]; split; intros; exfalso; lia]|]. left. split; auto. apply bounds_zero. auto.
  - destruct (Nat.eqb_spec (b_dim (Bn d)) 0) as [Ez|Ez].
    { left. exists (Bn d), (Bn (S d)), None. split; [reflexivity|]. split; [split; [|split]; auto; cbn [over_zero]; intros X; exfalso; lia|].
      left. split; auto. destruct (ci_base _ _ _ _ HC d ltac:(lia)) as [_ [[X _]|[_ X]]]; [lia|]. apply bnd_zero. auto. }
    pose proof (ci_mor _ _ _ _ HC d Hd ltac:(lia) ltac:(lia)) as HIn.
    assert (Ho : ~ over_zero Bs (S d)) by (cbn [over_zero]; lia).
    destruct (image_kernel_good rnd p (Bn (S d)) (Bn d) (Dn (S d)) HIn) as (I' & K & Pre & E & HK & HI').
    { apply (ci_rnd _ _ _ _ HC (S d) Hd). }
    rewrite E. cbn [bind].
    destruct (hom_lemma rnd p (b_bars (Bn (S (S d)))) (Bn (S d)) K I (cycles_at p D Bs (S d)) (bounds_at p D Bs (S d))) as [(H & EH & GH & GX)|(EH & K0 & Ipos)]; auto.
    + apply HC.
    + apply HIn.
    + intros r. apply cyc_sub; auto. lia.
    + intros r. apply bnd_sub.
    + left. rewrite EH. cbn [bind]. exists I', H, (Some Pre). split; [reflexivity|]. split; [|exact HI']. split; [auto|split; [contradiction|]].
      intros _ _ [[X _]|X]; [discriminate|]. apply GX. apply (Igood_zero (S d)); auto.
    + right. rewrite EH. split; [reflexivity|]. intros Hcpx. destruct HI as [[X _]|(_ & _ & _ & _ & _ & NI)]; [lia|].
      apply NI. intros r v Hv. pose proof chain_pos as Hp. apply (Hcpx d r v Hd) in Hv.
      destruct HK as (_ & _ & _ & _ & HQ). destruct (HQ r) as (_ & Q2 & _). destruct (Q2 v Hv) as (c & _ & Hn).
      rewrite K0 in Hn. apply (null_cong p _ r Hp) with (2 := Hn). intros i Hi. cbn. apply cong_eq. ring.
Qed.

Lemma mph_loop_good d : (d < length Bs)%nat -> forall I Hom Im Pre, Igood d I ->
  (exists Hs I0 Is Pres, mph_loop rnd D Bs p d I Hom Im Pre = Ok (Hs ++ Hom, I0 :: Is ++ Im, Pres ++ Pre) /\
     length Hs = d /\ length Pres = d /\ length Is = d /\ Igood 0 I0 /\ (forall e, (e < d)%nat -> Hdeg (S e) (nth e Hs empty_basis)) /\
     (forall e, (e < d)%nat -> Igood (S e) (nth e Is empty_basis))) \/
  (mph_loop rnd D Bs p d I Hom Im Pre = Err UnboundLocalError /\ ~ is_complex p D Bs).
Proof.
  induction d as [|d IH]; intros Hd I Hom Im Pre HI.
  - left. exists [], I, [], []. cbn. repeat split; auto; intros; lia.
  - cbn [mph_loop]. destruct HC as [_ [_ HlD] _ _ _].
    rewrite (nth_err_nth Bs (S d) empty_basis) by auto. cbn [bind]. rewrite (nth_err_nth Bs d empty_basis) by lia. cbn [bind].
    rewrite (nth_err_nth D (S d) (Mat 0 [])) by lia. cbn [bind].
    destruct (mph_step_good d I Hd HI) as [(i & h & pre & E & Hh & Hi)|[E Hn]]; [|right; rewrite E; auto].
    rewrite E. cbn [bind].
    destruct (IH ltac:(lia) i (h :: Hom) (I :: Im) (pre :: Pre) Hi) as [(Hs & I0 & Is & Pres & EL & L1 & L2 & L3 & G0 & GH & GI)|X]; [left|right; auto].
    exists (Hs ++ [h]), I0, (Is ++ [I]), (Pres ++ [pre]). rewrite <- !app_assoc. cbn [app]. split; auto. rewrite !app_length. cbn [length].
    split; [lia|]. split; [lia|]. split; [lia|]. split; auto. split.
    + intros e He. destruct (Nat.eq_dec e d) as [->|Hne].
      * rewrite app_nth2 by lia. rewrite L1, Nat.sub_diag. exact Hh.
      * rewrite app_nth1 by lia. apply GH. lia.
    + intros e He. destruct (Nat.eq_dec e d) as [->|Hne].
      * rewrite app_nth2 by lia. rewrite L3, Nat.sub_diag. exact HI.
      * rewrite app_nth1 by lia. apply GI. lia.
Qed.

Theorem mph_good :
  (exists Hom Im Pre, module_persistence_homology rnd D Bs p = Ok (Hom, Im, Pre) /\
     length Hom = length Bs /\ length Im = length Bs /\ length Pre = length Bs /\
     (forall d, (d < length Bs)%nat -> Hdeg d (nth d Hom empty_basis)) /\
     (forall d, (d < length Bs)%nat -> Igood d (nth d Im empty_basis))) \/
  (module_persistence_homology rnd D Bs p = Err UnboundLocalError /\ ~ is_complex p D Bs).
Proof.
  pose proof HC as [Hp [Hpos HlD] Hbase _ Hrnd]. unfold module_persistence_homology. destruct Bs as [|B0 Bt] eqn:EBs; [cbn in Hpos; lia|]. rewrite <- EBs in *.
  set (top := (length Bs - 1)%nat).
  rewrite (nth_err_nth Bs top empty_basis) by (unfold top; lia). cbn [bind].
  destruct (empty_over_ok (Bn top)) as (e & -> & De & _). cbn [bind].
  assert (Gtop : Igood top e).
  { left. split; auto. apply bounds_zero. rewrite nth_overflow by (unfold top; lia). reflexivity. }
  destruct (mph_loop_good top ltac:(unfold top; lia) e [] [] [] Gtop) as [(Hs & I0 & Is & Pres & EL & L1 & L2 & L3 & G0 & GH & GI)|[EL Hn]];
    [|right; rewrite EL; auto].
  rewrite EL. cbn [bind]. rewrite !app_nil_r.
  assert (EB0 : B0 = Bn 0) by (rewrite EBs; reflexivity). rewrite EB0.
  destruct (Hbase 0%nat ltac:(lia)) as [Hbrk0 Hb0].
  assert (Fin : forall H0, Hgood 0 H0 -> ((0 < b_dim (Bn 0))%nat -> b_sorted (Bn 0) = false \/ b_bars (Bn 1) = [] -> Hexact 0 H0) -> (exists Hom Im Pre, @Ok (list basis * list basis * list (option mat)) (H0 :: Hs, I0 :: Is, None :: Pres) = Ok (Hom, Im, Pre) /\
     length Hom = length Bs /\ length Im = length Bs /\ length Pre = length Bs /\
     (forall d, (d < length Bs)%nat -> Hdeg d (nth d Hom empty_basis)) /\ (forall d, (d < length Bs)%nat -> Igood d (nth d Im empty_basis)))).
  { intros H0 G G'. exists (H0 :: Hs), (I0 :: Is), (None :: Pres). cbn [length]. split; auto. unfold top in *. split; [lia|]. split; [lia|]. split; [lia|]. split.
    - intros [|d] Hd; cbn [nth]; [split; [auto|split; [intros []|intros _ X [[_ Y]|Y]; auto]]|]. apply GH. lia.
    - intros [|d] Hd; cbn [nth]; auto. apply GI. lia. }
  destruct (Nat.eqb_spec (b_dim (Bn 0)) 0) as [E0|E0].
  - left. cbn [bind]. apply Fin; [apply zero_hom; auto|lia].
  - destruct Hb0 as [[Hd0 HB0]|[X _]]; [|lia].
    destruct (identity_kernel rnd p (Bn 0) Hp HB0 Hd0) as (b & K & o & -> & Es & HK & DK & KB & KC).
    { intros x y Hx Hy. pose proof (Hrnd 0%nat Hpos) as X. cbn beta iota in X. rewrite app_nil_r in X. apply X; unfold endpoints; apply in_or_app; left; apply in_map; auto. }
    cbn [bind]. rewrite Es. cbn [bind nth_err nth_error].
    destruct (hom_lemma rnd p (b_bars (Bn 1)) (Bn 0) K I0 (cycles_at p D Bs 0) (bounds_at p D Bs 0)) as [(H & EH & GHH & GX)|(_ & K0 & _)]; auto.
    + intros r. apply cyc_sub; auto.
    + intros r. apply bnd_sub.
    + left. rewrite EH. cbn [bind]. apply Fin; [exact GHH|]. intros _ [X|X]; [|apply GX, (Igood_zero 0); auto].
      apply (exact_unit rnd p (b_bars (Bn 1)) (Bn 0) K I0 H); auto. intros r. apply bnd_sub.
    + lia.
Qed.
End Chain.
