(** * The clearing optimisation does not change the result *)
From Verif Require Import Base ListX SortX Lin Gauss_model Gauss_arith Gauss_col Gauss_solve Basis_model PH_model
  PH_core Spec_PH PH_step PH_loop.
From Coq Require Import Znumtheory.
Local Open Scope Z_scope.

(** ** Variant of the algorithm without PH_classic.py:171-173 (no column is cleared). *)
Definition ph_dim_nc (D : mat) (Rd Rd1 : list Z) (max_rad p : Z) (pivots : list nat)
    (capc : nat) (cur : list gen) : res ph_state :=
  let non_pivots := range_diff (ncols D) pivots in
  '(Im_aux, T) <- gauss_col D p ;;
  foldM (ph_col Im_aux T Rd Rd1 max_rad capc (length non_pivots)) non_pivots
        (PhState [] [] [] cur).

Fixpoint ph_loop_nc (d : nat) (n0 : nat) (Ds : list mat) (R : list (list Z)) (max_rad p : Z)
    (pivots : list nat) (capc : nat) (cur : list gen)
  : res (list (list gen) * list (list imgen)) :=
  match d with
  | O => h0 <- ph_zero n0 max_rad pivots capc cur ;; Ok ([h0], [])
  | S d' =>
      D <- nth_err Ds d' ;;
      Rd <- nth_err R d ;;
      Rd1 <- nth_err R d' ;;
      st <- ph_dim_nc D Rd Rd1 max_rad p pivots capc cur ;;
      '(homs, ims) <- ph_loop_nc d' n0 Ds R max_rad p (st_piv st) (nrows D) (st_next st) ;;
      Ok (homs ++ [st_cur st], ims ++ [st_im st])
  end.

Definition persistent_homology_nc (rnd : Z -> Z) (n0 : nat) (Ds : list mat) (R : list (list Z)) (max_rad p : Z)
  : res ph_out :=
  let top := length Ds in
  if Nat.eqb top 0 then Err IndexError
  else
    let capc := ncols (nth (top - 1) Ds (Mat 0 [])) in
    '(homs, ims) <- ph_loop_nc top n0 Ds R max_rad p [] capc [] ;;
    ph_pack rnd n0 R max_rad (S top) homs ims.

Lemma dcol_app1 done x k : dcol (done ++ [x]) k = if Nat.ltb k (length done) then dcol done k
                         else if Nat.eqb k (length done) then x else ([], []).
Proof. exact (dcol_snoc 0 0 (fun _ => []) (fun k (H : (k < 0)%nat) => eq_refl) done x k). Qed.

(** ** Gaussian elimination on two matrices that agree outside zero columns *)
Definition rel1 (x y : vec * vec) : Prop := x = y \/ (index_pivot (fst x) = -1 /\ index_pivot (fst y) = -1).

Lemma find_rel pv done done' : -1 < pv -> Forall2 rel1 done done' ->
  find (fun rt => index_pivot (fst rt) =? pv) done = find (fun rt => index_pivot (fst rt) =? pv) done'.
Proof.
  intros Hpv H. induction H as [|x y l l' [->|[H1 H2]] H IH]; cbn [find]; auto.
  - destruct (index_pivot (fst y) =? pv); auto.
  - rewrite H1, H2. replace (-1 =? pv) with false by lia. exact IH.
Qed.

Lemma while_rel p done done' : Forall2 rel1 done done' -> forall fuel r t pv,
  gauss_while fuel done r t pv p = gauss_while fuel done' r t pv p.
Proof.
  intros H fuel. induction fuel as [|f IH]; intros r t pv; cbn [gauss_while]; auto.
  destruct (Z.gtb_spec pv (-1)) as [Hpv|]; auto.
  rewrite (find_rel pv done done') by auto. destruct (find _ done') as [[rk tk]|]; auto.
  destruct (inv_mod_p _ _) as [iv|]; cbn [bind]; auto. destruct (vany _); auto.
Qed.

Lemma for_prefix p m todo : forall done out, gauss_for m todo done p = Ok out ->
  forall k, (k < length done)%nat -> dcol out k = dcol done k.
Proof.
  induction todo as [|[r t] todo IH]; intros done out; cbn [gauss_for].
  - intros H. injection H as <-. auto.
  - destruct (gauss_while _ _ _ _ _ _) as [[r' t']|]; cbn [bind]; [|discriminate].
    intros H k Hk. rewrite (IH _ _ H k) by (rewrite app_length; cbn; lia).
    unfold dcol. apply app_nth1. auto.
Qed.

Lemma for_rel p m (P : list nat) todo : forall todo' done done' out,
  gauss_for m todo done p = Ok out ->
  length todo' = length todo -> length done' = length done ->
  Forall2 rel1 done done' -> (forall k, ~ In k P -> dcol done k = dcol done' k) ->
  (forall k, (k < length todo)%nat -> In (length done + k)%nat P -> index_pivot (fst (nth k todo' ([], []))) = -1) ->
  (forall k, (k < length todo)%nat -> ~ In (length done + k)%nat P -> nth k todo' ([], []) = nth k todo ([], [])) ->
  (forall k, In k P -> index_pivot (fst (dcol out k)) = -1) ->
  exists out', gauss_for m todo' done' p = Ok out' /\ forall k, ~ In k P -> dcol out k = dcol out' k.
Proof.
  induction todo as [|[r t] todo IH]; intros [|[r1 t1] todo'] done done' out Hg L1 L2 Hr He HP1 HP2 Ho; try discriminate.
  - cbn in *. injection Hg as <-. exists done'. auto.
  - cbn [gauss_for] in *.
    destruct (gauss_while (S (S m)) done r t (index_pivot r) p) as [[r' t']|] eqn:Ew; cbn [bind] in Hg; [|discriminate].
    assert (St : exists r1' t1', gauss_while (S (S m)) done' r1 t1 (index_pivot r1) p = Ok (r1', t1') /\
        rel1 (r', t') (r1', t1') /\ (~ In (length done) P -> (r', t') = (r1', t1'))).
    { destruct (in_dec Nat.eq_dec (length done) P) as [HP|HP].
      - assert (E1 : index_pivot r1 = -1).
        { apply (HP1 0%nat); [cbn; lia|]. rewrite Nat.add_0_r. auto. }
        exists r1, t1. rewrite E1. split; [reflexivity|]. split; [|tauto]. right. cbn [fst]. split; auto.
        specialize (Ho _ HP). rewrite (for_prefix _ _ _ _ _ Hg) in Ho by (rewrite app_length; cbn; lia).
        unfold dcol in Ho. rewrite nth_app_last in Ho. exact Ho.
      - assert (E1 : (r1, t1) = (r, t)).
        { apply (HP2 0%nat); [cbn; lia|]. rewrite Nat.add_0_r. auto. }
        injection E1 as -> ->. exists r', t'. rewrite <- (while_rel p done done' Hr). split; auto.
        split; auto. left; auto. }
    destruct St as (r1' & t1' & Ew' & Hr1 & Hr2). rewrite Ew'. cbn [bind].
    apply (IH todo' (done ++ [(r', t')]) (done' ++ [(r1', t1')]) out); auto.
    + rewrite !app_length. cbn. lia.
    + apply Forall2_app; auto.
    + intros k Hk. rewrite !dcol_app1, L2. destruct (Nat.ltb k (length done)); auto.
      destruct (Nat.eqb_spec k (length done)) as [->|]; auto.
    + intros k Hk Hin. apply (HP1 (S k)); [cbn; lia|]. rewrite app_length in Hin. cbn in Hin.
      replace (length done + S k)%nat with (length done + 1 + k)%nat by lia. auto.
    + intros k Hk Hin. apply (HP2 (S k)); [cbn; lia|]. rewrite app_length in Hin. cbn in Hin.
      replace (length done + S k)%nat with (length done + 1 + k)%nat by lia. auto.
Qed.

Section Clear.
Variables (p : Z) (D : mat) (P : list nat).
Hypothesis Hp : prime p.
Hypothesis HDwf : wf_mat D.
Hypothesis HDr : rng_mat p D.
Hypothesis HD0 : (nrows D = 0 -> ncols D = 0)%nat.
Hypothesis HP : forall k, In k P -> (k < ncols D)%nat /\
  exists c, is_piv p c k /\ veq p (lc (ncols D) c (fun l => cf D l)) fzero.

Lemma cleared_nil_cols : forall k, (k < ncols D)%nat -> col (cleared D []) k = col D k.
Proof. intros k Hk. rewrite cleared_col by auto. reflexivity. Qed.

Lemma cleared_nil : cleared D [] = D.
Proof.
  unfold cleared. cbn [memn existsb]. destruct D as [m cs]. cbn [nrows]. f_equal. unfold ncols, col. cbn [cols].
  apply (nth_ext _ _ [] []); [rewrite map_length, seq_length; auto|].
  intros n Hn. rewrite map_length, seq_length in Hn. rewrite nth_map_seq by auto. reflexivity.
Qed.

(** Columns with a relation are reduced to zero even if not cleared. *)
Lemma uncleared_zero R T k : gauss_ok p D R T -> In k P -> forall i, get R i k = 0.
Proof.
  intros G Hk. destruct (HP k Hk) as (Hlt & c & Hc & E).
  apply (cycle_pivot p D [] R T Hp HDr) with (v := c) (i := k); auto.
  - intros l [].
  - rewrite cleared_nil. exact G.
Qed.

Lemma vany_piv v : (forall i, vget v i = 0) -> index_pivot v = -1.
Proof. intros H. apply index_pivot_m1. auto. Qed.

Lemma gauss_cleared_same : exists R T R' T',
  gauss_col D p = Ok (R, T) /\ gauss_col (cleared D P) p = Ok (R', T') /\
  nrows R = nrows R' /\ ncols R = ncols R' /\ ncols T = ncols T' /\
  forall k, ~ In k P -> col R k = col R' k /\ col T k = col T' k.
Proof.
  destruct (gauss_run0 p D Hp HDwf HDr HD0) as (R & T & E & G).
  assert (HC0 : (nrows (cleared D P) = 0 -> ncols (cleared D P) = 0)%nat).
  { cbn [cleared nrows]. rewrite cleared_ncols. auto. }
  destruct (gauss_run0 p (cleared D P) Hp (cleared_wf D P HDwf)
     ltac:(apply cleared_rng; auto; pose proof (prime_ge_2 p Hp); lia) HC0) as (R' & T' & E' & G').
  exists R, T, R', T'. split; auto. split; auto.
  split; [rewrite (go_nrR _ _ _ _ G), (go_nrR _ _ _ _ G'); reflexivity|].
  split; [rewrite (go_ncR _ _ _ _ G), (go_ncR _ _ _ _ G'), cleared_ncols; reflexivity|].
  split; [rewrite (go_ncT _ _ _ _ G), (go_ncT _ _ _ _ G'), cleared_ncols; reflexivity|].
  pose proof (uncleared_zero R T) as UZ.
  unfold gauss_col in E, E'. cbn [cleared nrows] in E'. destruct (Nat.eqb (nrows D) 0).
  { injection E as <- <-. injection E' as <- <-. auto. }
  rewrite cleared_ncols in E'.
  destruct (gauss_for (nrows D) (combine (cols D) (cols (mident (ncols D)))) [] p) as [out|] eqn:Ef; [|discriminate].
  cbn [bind] in E. injection E as <- <-.
  destruct (for_rel p (nrows D) P _ (combine (cols (cleared D P)) (cols (mident (ncols D)))) [] [] out Ef)
    as (out' & Ef' & Heq).
  - rewrite !combine_length. fold (ncols (cleared D P)). rewrite cleared_ncols. reflexivity.
  - reflexivity.
  - constructor.
  - auto.
  - intros k Hk Hin. cbn [length plus] in Hin. rewrite gauss_todo_length in Hk.
    pose proof (gauss_todo (cleared D P) k) as X. cbn zeta in X. rewrite cleared_ncols in X.
    assert (HX : (k < length (combine (cols (cleared D P)) (cols (mident (ncols D)))))%nat)
      by (rewrite combine_length; unfold mident; cbn [cols]; rewrite map_length, seq_length;
      fold (ncols (cleared D P)); rewrite cleared_ncols; lia).
    specialize (X HX). unfold vec in *. rewrite X.
    cbn [fst]. rewrite cleared_col by auto. replace (memn k P) with true by (symmetry; apply memn_In; auto).
    apply vany_piv. intros i. apply PH_core.vget_vzero.
  - intros k Hk Hin. cbn [length plus] in Hin. rewrite gauss_todo_length in Hk.
    pose proof (gauss_todo (cleared D P) k) as X. cbn zeta in X. rewrite cleared_ncols in X.
    assert (HX : (k < length (combine (cols (cleared D P)) (cols (mident (ncols D)))))%nat)
      by (rewrite combine_length; unfold mident; cbn [cols]; rewrite map_length, seq_length;
      fold (ncols (cleared D P)); rewrite cleared_ncols; lia).
    specialize (X HX). unfold vec in *. rewrite X.
    pose proof (gauss_todo D k) as Y. cbn zeta in Y. specialize (Y ltac:(rewrite gauss_todo_length; auto)). unfold vec in *. rewrite Y.
    rewrite cleared_col by auto. replace (memn k P) with false; auto.
    symmetry. apply not_true_iff_false. rewrite memn_In. auto.
  - intros k Hk. apply vany_piv. intros i. specialize (UZ k G Hk i). unfold get in UZ. rewrite col_map_fst in UZ. exact UZ.
  - cbn [cleared cols] in Ef'. cbn [cleared cols] in E'. rewrite Ef' in E'. cbn [bind] in E'. injection E' as <- <-.
    intros k Hk. rewrite !col_map_fst, !col_map_snd. rewrite (Heq k Hk). auto.
Qed.
End Clear.

Lemma foldM_ext {A S} (f g : S -> A -> res S) l : (forall s x, In x l -> f s x = g s x) -> forall s, foldM f l s = foldM g l s.
Proof.
  induction l as [|x l IH]; intros H s; cbn [foldM]; auto. rewrite (H s x) by (left; auto).
  destruct (g s x) as [s'|]; cbn [bind]; auto. apply IH. intros; apply H; right; auto.
Qed.

Section Complex.
Variables (p max_rad : Z) (n0 : nat) (Ds : list mat) (Rs : list (list Z)).
Hypothesis Hp : prime p.
Hypothesis VC : valid_complex p max_rad n0 Ds Rs.

Lemma ph_dim_nc_eq d ims capc cur : (d < length Ds)%nat -> im_ok p max_rad Ds Rs (S d) ims ->
  ph_dim_nc (nth d Ds (Mat 0 [])) (nth (S d) Rs []) (nth d Rs []) max_rad p (map (fun g => npiv (gvec g)) ims) capc cur =
  ph_dim (nth d Ds (Mat 0 [])) (nth (S d) Rs []) (nth d Rs []) max_rad p (map (fun g => npiv (gvec g)) ims) capc cur.
Proof.
  intros Hd IO. set (D := nth d Ds (Mat 0 [])). set (P := map (fun g => npiv (gvec g)) ims).
  pose proof (P_cycle p max_rad n0 Ds Rs Hp VC d ims Hd IO) as HPc. fold D P in HPc.
  destruct (gauss_cleared_same p D P Hp) as (R & T & R' & T' & E & E' & Hn & Hc & Hc' & Heq); auto.
  { apply (vc_wf _ _ _ _ _ VC); auto. }
  { intros k Hk i. apply (vc_red _ _ _ _ _ VC); auto. }
  { unfold D. rewrite (vc_nrows _ _ _ _ _ VC), (vc_ncols _ _ _ _ _ VC) by auto. apply (vc_empty _ _ _ _ _ VC); auto. }
  unfold ph_dim_nc, ph_dim. rewrite clear_cols_ok by (intros k Hk; apply (HPc k Hk)).
  rewrite E. cbn [bind]. rewrite E'. cbn [bind]. apply foldM_ext. intros s k Hk.
  apply in_range_diff in Hk. destruct (Heq k (proj2 Hk)) as [H1 H2].
  unfold ph_col, col_err. rewrite Hn, Hc, Hc', H1, H2. reflexivity.
Qed.

Lemma ph_loop_nc_eq d ims : (d <= length Ds)%nat -> im_ok p max_rad Ds Rs d ims ->
  ph_loop_nc d n0 Ds Rs max_rad p (map (fun g => npiv (gvec g)) ims) (csize Rs d) (next_gens Rs d ims) =
  ph_loop d n0 Ds Rs max_rad p (map (fun g => npiv (gvec g)) ims) (csize Rs d) (next_gens Rs d ims).
Proof.
  revert ims. induction d as [|d IH]; intros ims Hd IO; auto.
  cbn [ph_loop ph_loop_nc].
  rewrite (nth_err_ok Ds d (Mat 0 [])) by lia. cbn [bind].
  assert (LR : length Rs = S (length Ds)) by apply (vc_len _ _ _ _ _ VC).
  rewrite (nth_err_ok Rs (S d) []) by lia. cbn [bind].
  rewrite (nth_err_ok Rs d []) by lia. cbn [bind].
  rewrite (ph_dim_nc_eq d ims) by (auto; lia).
  destruct (ph_dim_step p max_rad n0 Ds Rs Hp VC d ims ltac:(lia) IO) as (st & E & IM & Ep & En & HO).
  rewrite E. cbn [bind]. rewrite (vc_nrows _ _ _ _ _ VC) by lia. rewrite Ep, En. rewrite IH by (auto; lia). reflexivity.
Qed.

Lemma C24_same rnd : persistent_homology_nc rnd n0 Ds Rs max_rad p = persistent_homology rnd n0 Ds Rs max_rad p.
Proof.
  unfold persistent_homology_nc, persistent_homology. destruct (Nat.eqb (length Ds) 0); auto.
  pose proof (vc_top _ _ _ _ _ VC).
  rewrite (vc_ncols _ _ _ _ _ VC) by lia. replace (S (length Ds - 1)) with (length Ds) by lia.
  pose proof (ph_loop_nc_eq (length Ds) [] (le_n _) (im_ok_top p max_rad n0 Ds Rs Hp VC)) as E.
  unfold next_gens in E. cbn [map filter] in E. rewrite E. reflexivity.
Qed.

(** A column whose index is the last nonzero position of a boundary reduces to zero. *)
Lemma C24_zero d v k R T : (d < length Ds)%nat -> (exists r, bounds_at p Ds Rs (S d) r v) ->
  (k < csize Rs (S d))%nat -> v k mod p <> 0 -> (forall j, (k < j)%nat -> v j mod p = 0) ->
  gauss_col (nth d Ds (Mat 0 [])) p = Ok (R, T) -> forall i, get R i k = 0.
Proof.
  intros Hd (r & w & Hw & Ew) Hk Hv Hj E. set (D := nth d Ds (Mat 0 [])) in *.
  pose proof (prime_ge_2 p Hp).
  assert (HDwf : wf_mat D) by (apply (vc_wf _ _ _ _ _ VC); auto).
  assert (HD0 : (nrows D = 0 -> ncols D = 0)%nat).
  { unfold D. rewrite (vc_nrows _ _ _ _ _ VC), (vc_ncols _ _ _ _ _ VC) by auto. apply (vc_empty _ _ _ _ _ VC); auto. }
  assert (HDr : rng_mat p D) by (intros l Hl i; apply (vc_red _ _ _ _ _ VC); auto).
  assert (HN : ncols D = csize Rs (S d)) by (apply (vc_ncols _ _ _ _ _ VC); auto).
  destruct (gauss_run0 p D Hp HDwf HDr HD0) as (R' & T' & E' & G).
  rewrite E in E'. injection E' as <- <-.
  apply (uncleared_zero p D [k] Hp HDwf HDr HD0) with (T := T); auto; [|left; auto].
  intros l [<-|[]]. split; [lia|]. exists v. split.
  - split.
    + intros C. apply Hv. apply cong_iff_mod in C; [|lia]. rewrite C. apply Z.mod_0_l. lia.
    + intros j Hj'. apply cong_iff_mod; [lia|]. rewrite (Hj j Hj'). rewrite Z.mod_0_l by lia. reflexivity.
  - intros i. rewrite HN. change (cong p (lc (csize Rs (S d)) v (fun l => cf (nth d Ds (Mat 0 [])) l) i) 0).
    rewrite <- (bd_lc Ds Rs d v i).
    assert (V : veq p (bd_of Ds Rs (S (S d)) w) v) by (intros x; apply cong_iff_mod; [lia|apply Ew]).
    rewrite <- (bd_of_cong p Ds Rs (S d) _ _ V i). apply (bd_bd p max_rad n0 Ds Rs Hp VC).
Qed.
End Complex.
