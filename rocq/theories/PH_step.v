(** * One step of the persistent homology algorithm computes a homology basis *)
From Verif Require Import Base ListX SortX Lin Gauss_model Gauss_arith Gauss_col Gauss_solve Basis_model PH_model
  PH_core Spec_PH.
From Coq Require Import Znumtheory Sorting.Permutation.
Local Open Scope Z_scope.

(** ** The inner loop *)
Section Fold.
Variables (R T : mat) (Rd Rd1 : list Z) (max_rad : Z) (capc capi N : nat).
Hypothesis HR : ncols R = N.
Hypothesis HT : ncols T = N.
Hypothesis HlT : forall k, (k < N)%nat -> length (col T k) = capc.
Hypothesis HRd : length Rd = N.
Hypothesis HRd1 : forall k, (k < N)%nat -> vany (col R k) = true -> (npiv (col R k) < length Rd1)%nat.

Definition nzk (k : nat) : bool := vany (col R k).
Definition birth_of (k : nat) : Z := nth (npiv (col R k)) Rd1 0.
Definition mk_next (k : nat) : gen := ((birth_of k, nth k Rd 0), col R k).
Definition mk_im (k : nat) : imgen := ((nth k Rd 0, max_rad), col R k, col T k).
Definition mk_cur (k : nat) : gen := ((nth k Rd 0, max_rad), col T k).
Definition shortb (k : nat) : bool := birth_of k <? nth k Rd 0.

Lemma nth_err_ok {A} (l : list A) i d : (i < length l)%nat -> nth_err l i = Ok (nth i l d).
Proof. intros H. unfold nth_err. rewrite (nth_error_nth' l d H). reflexivity. Qed.

Lemma push_ok {A} cap (l : list A) x : (length l < cap)%nat -> push cap l x = Ok (l ++ [x]).
Proof. intros H. unfold push. apply Nat.ltb_lt in H. rewrite H. reflexivity. Qed.

Lemma fold_cols ks st : (forall k, In k ks -> (k < N)%nat) ->
  (length (st_next st) + length (filter nzk ks) <= nrows R)%nat ->
  (length (st_im st) + length (filter nzk ks) <= capi)%nat ->
  (length (st_cur st) + length (filter (fun k => negb (nzk k)) ks) <= capc)%nat ->
  foldM (ph_col R T Rd Rd1 max_rad capc capi) ks st =
  Ok (PhState (st_piv st ++ map (fun k => npiv (col R k)) (filter nzk ks))
              (st_next st ++ map mk_next (filter shortb (filter nzk ks)))
              (st_im st ++ map mk_im (filter nzk ks))
              (st_cur st ++ map mk_cur (filter (fun k => negb (nzk k)) ks))).
Proof.
  revert st. induction ks as [|k ks IH]; intros st Hk H1 H2 H3.
  - cbn. rewrite !app_nil_r. destruct st; reflexivity.
  - assert (HkN : (k < N)%nat) by (apply Hk; left; auto).
    cbn [foldM]. unfold ph_col at 1. unfold col_err.
    replace (Nat.ltb k (ncols R)) with true by (symmetry; apply Nat.ltb_lt; lia). cbn [bind].
    replace (Nat.ltb k (ncols T)) with true by (symmetry; apply Nat.ltb_lt; lia). cbn [bind].
    change (vany (col R k)) with (nzk k).
    cbn [filter] in *. destruct (nzk k) eqn:E; cbn [negb] in H1, H2, H3.
    + cbn [negb filter map]. fold (npiv (col R k)).
      rewrite (nth_err_ok Rd1 _ 0) by auto. cbn [bind].
      rewrite (nth_err_ok Rd _ 0) by lia. cbn [bind].
      cbn [length] in *. fold (birth_of k).
      unfold shortb at 1. fold (birth_of k).
      destruct (birth_of k <? nth k Rd 0) eqn:Eb.
      * rewrite push_ok by lia. cbn [bind]. rewrite push_ok by lia. cbn [bind].
        rewrite IH; cbn [st_piv st_next st_im st_cur]; rewrite ?app_length; cbn [length]; try lia;
          try (intros x Hx; apply Hk; right; auto; fail).
        f_equal. f_equal; rewrite <- app_assoc; reflexivity.
      * cbn [bind]. rewrite push_ok by lia. cbn [bind].
        rewrite IH; cbn [st_piv st_next st_im st_cur]; rewrite ?app_length; cbn [length]; try lia;
          try (intros x Hx; apply Hk; right; auto; fail).
        f_equal. f_equal; rewrite <- app_assoc; reflexivity.
    + cbn [negb filter map length] in *.
      rewrite (nth_err_ok Rd _ 0) by lia. cbn [bind].
      rewrite HlT, Nat.eqb_refl by auto. cbn [negb].
      rewrite push_ok by lia. cbn [bind].
      rewrite IH; cbn [st_piv st_next st_im st_cur]; rewrite ?app_length; cbn [length]; try lia;
          try (intros x Hx; apply Hk; right; auto; fail).
      f_equal. f_equal. rewrite <- app_assoc. reflexivity.
Qed.
End Fold.

(** ** Sorted radii: cells born by [r] form a prefix *)
Lemma prefix_exists (f : nat -> Z) n r : (forall i j, (i <= j < n)%nat -> f i <= f j) ->
  exists m, (m <= n)%nat /\ forall i, (i < n)%nat -> f i <= r <-> (i < m)%nat.
Proof.
  induction n as [|n IH]; intros H.
  - exists 0%nat. split; auto. intros; lia.
  - destruct IH as (m & Hm & Hi); [intros; apply H; lia|].
    destruct (Z_le_gt_dec (f n) r) as [E|E].
    + exists (S n). split; auto. intros i Hin. split; [lia|]. intros _. specialize (H i n). lia.
    + exists m. split; [lia|]. intros i Hin. destruct (Nat.eq_dec i n) as [->|].
      * split; intros; lia.
      * apply Hi. lia.
Qed.

(** ** Invariants *)
Section Complex.
Variables (p max_rad : Z) (n0 : nat) (Ds : list mat) (Rs : list (list Z)).
Hypothesis Hp : prime p.
Hypothesis VC : valid_complex p max_rad n0 Ds Rs.

Local Lemma p_pos : 2 <= p.
Proof. apply prime_ge_2; auto. Qed.

Definition gvec (g : imgen) : vec := snd (fst g).
Definition gdeath (g : imgen) : Z := fst (fst (fst g)).

(** Set of boundary generators present at [r]. *)
Definition im_set (ims : list imgen) (r : Z) : fvec -> Prop :=
  fun u => exists g, In g ims /\ gdeath g <= r /\ u = vget (gvec g).

Definition hom_set (gens : list gen) (r : Z) : fvec -> Prop :=
  fun u => exists g, In g gens /\ fst (fst g) <= r < snd (fst g) /\ u = vget (snd g).

Record im_ok (d : nat) (ims : list imgen) : Prop := {
  io_len : forall g, In g ims -> length (gvec g) = csize Rs d;
  io_rng : forall g, In g ims -> rng p (gvec g);
  io_nz : forall g, In g ims -> vany (gvec g) = true;
  io_nodup : NoDup (map (fun g => npiv (gvec g)) ims);
  io_bar : forall g, In g ims -> crad Rs d (npiv (gvec g)) <= gdeath g < max_rad /\ snd (fst (fst g)) = max_rad;
  io_pre : forall g, In g ims -> length (snd g) = csize Rs (S d) /\ rng p (snd g) /\
    veq p (bd_of Ds Rs (S d) (vget (snd g))) (vget (gvec g)) /\
    exists k, (k < csize Rs (S d))%nat /\ crad Rs (S d) k = gdeath g /\ is_piv p (vget (snd g)) k;
  io_bounds : forall r v, bounds_at p Ds Rs d r v <-> span p (im_set ims r) v
}.

Record hom_ok (d : nat) (ims : list imgen) (gens : list gen) : Prop := {
  ho_len : forall g, In g gens -> length (snd g) = csize Rs d;
  ho_rng : forall g, In g gens -> rng p (snd g);
  ho_nz : forall g, In g gens -> vany (snd g) = true;
  ho_birth : forall g, In g gens -> crad Rs d (npiv (snd g)) = fst (fst g);
  ho_nodup : NoDup (map (fun g => npiv (snd g)) gens);
  ho_cycle : forall g, In g gens -> veq p (bd_of Ds Rs d (vget (snd g))) fzero;
  ho_bar : forall g, In g gens -> fst (fst g) < snd (fst g) <= max_rad;
  ho_fin : forall g, In g gens -> snd (fst g) < max_rad ->
    exists h, In h ims /\ gvec h = snd g /\ gdeath h = snd (fst g);
  ho_disj : forall g h, In g gens -> In h ims -> npiv (snd g) = npiv (gvec h) -> snd (fst g) = gdeath h;
  ho_span : forall r v, r < max_rad -> cycle_at p Ds Rs d r v ->
    span p (fun u => hom_set gens r u \/ im_set ims r u) v
}.

Lemma npiv_piv v : rng p v -> vany v = true -> is_piv p (vget v) (npiv v).
Proof.
  intros Hr Hv. apply rng_piv; auto. apply npiv_spec. intros E.
  assert (vany v = false); [|congruence]. apply vany_false. apply index_pivot_m1; auto.
Qed.

Lemma npiv_lt v : vany v = true -> (npiv v < length v)%nat.
Proof.
  intros Hv. apply npiv_spec. intros E.
  assert (vany v = false); [|congruence]. apply vany_false. apply index_pivot_m1; auto.
Qed.

Lemma chain_iff d r v : chain_at p Rs d r v <-> forall i, ~ ((i < csize Rs d)%nat /\ crad Rs d i <= r) -> cong p (v i) 0.
Proof.
  unfold chain_at. pose proof p_pos as Hp2. split; intros H i Hi.
  - destruct (cong_dec p (v i) 0) as [|E]; auto. exfalso. apply Hi. apply H.
    intros E'. apply E. apply cong_iff_mod; [lia|]. rewrite E'. reflexivity.
  - destruct (lt_dec i (csize Rs d)); [destruct (Z_le_gt_dec (crad Rs d i) r)|]; auto.
    + exfalso. apply Hi. assert (C : cong p (v i) 0) by (apply H; lia). apply cong_iff_mod in C; [|lia].
      rewrite C. reflexivity.
    + exfalso. apply Hi. assert (C : cong p (v i) 0) by (apply H; lia). apply cong_iff_mod in C; [|lia].
      rewrite C. reflexivity.
Qed.

Lemma cycle_iff d r v : cycle_at p Ds Rs d r v <-> chain_at p Rs d r v /\ veq p (bd_of Ds Rs d v) fzero.
Proof.
  pose proof p_pos as Hp2. unfold cycle_at. split; intros [H1 H2]; split; auto; intros i; specialize (H2 i).
  - apply cong_iff_mod; [lia|]. rewrite H2. reflexivity.
  - apply cong_iff_mod in H2; [|lia]. rewrite H2. reflexivity.
Qed.

Lemma bounds_iff d r v : bounds_at p Ds Rs d r v <-> exists w, chain_at p Rs (S d) r w /\ veq p (bd_of Ds Rs (S d) w) v.
Proof.
  pose proof p_pos as Hp2. unfold bounds_at. split; intros (w & H1 & H2); exists w; split; auto; intros i; specialize (H2 i);
    apply cong_iff_mod; auto; lia.
Qed.

(** Prefix of cells born by [r]. *)
Lemma prefix_of d r : exists m, (m <= csize Rs d)%nat /\
  forall i, ((i < csize Rs d)%nat /\ crad Rs d i <= r) <-> (i < m)%nat.
Proof.
  destruct (prefix_exists (crad Rs d) (csize Rs d) r) as (m & Hm & Hi).
  - intros i j Hij. apply (vc_sorted _ _ _ _ _ VC); auto.
  - exists m. split; auto. intros i. split.
    + intros [H1 H2]. apply Hi; auto.
    + intros H. split; [lia|]. apply Hi; auto. lia.
Qed.

Lemma bd_of_lin d a u v i : bd_of Ds Rs d (fun k => a * u k + v k) i = a * bd_of Ds Rs d u i + bd_of Ds Rs d v i.
Proof.
  unfold bd_of. rewrite <- Zsum_scale, <- Zsum_add. apply Zsum_ext. intros; ring.
Qed.

Lemma bd_of_cong d u v : veq p u v -> veq p (bd_of Ds Rs d u) (bd_of Ds Rs d v).
Proof. intros H i. unfold bd_of. apply Zsum_cong. intros k Hk. rewrite (H k). reflexivity. Qed.

Lemma csize_top d : (length Ds < d)%nat -> csize Rs d = 0%nat.
Proof.
  intros H. unfold csize. rewrite nth_overflow; auto. rewrite (vc_len _ _ _ _ _ VC). lia.
Qed.

Lemma bd_bd d w : veq p (bd_of Ds Rs d (bd_of Ds Rs (S d) w)) fzero.
Proof.
  pose proof p_pos as H2. intros i. unfold fzero. destruct d as [|d].
  { unfold bd_of. rewrite Zsum_0; [reflexivity|]. intros; simpl; ring. }
  unfold bd_of.
  transitivity (Zsum (csize Rs (S (S d))) (fun j => Zsum (csize Rs (S d))
     (fun k => bd_entry Ds (S d) i k * bd_entry Ds (S (S d)) k j) * w j)).
  - apply cong_eq.
    rewrite (Zsum_ext _ _ (fun k => Zsum (csize Rs (S (S d))) (fun j => bd_entry Ds (S d) i k * (bd_entry Ds (S (S d)) k j * w j)))).
    + rewrite Zsum_swap. apply Zsum_ext. intros j Hj. rewrite <- Zsum_scale_r. apply Zsum_ext. intros; ring.
    + intros k Hk. rewrite <- Zsum_scale. reflexivity.
  - apply Zsum_cong0. intros j Hj. rewrite (cong_iff_mod p _ 0) by lia.
    rewrite Z.mul_mod by lia. rewrite (vc_square _ _ _ _ _ VC d i j Hj). reflexivity.
Qed.

Lemma cycle_closed d r u v a w : cycle_at p Ds Rs d r u -> cycle_at p Ds Rs d r v ->
  veq p w (fadd (fscale a u) v) -> cycle_at p Ds Rs d r w.
Proof.
  rewrite !cycle_iff, !chain_iff. intros [Hu1 Hu2] [Hv1 Hv2] E. split.
  - intros i Hi. rewrite (E i). unfold fadd, fscale. rewrite (Hu1 i Hi), (Hv1 i Hi). apply cong_eq; ring.
  - intros i. rewrite (bd_of_cong d w _ E i).
    rewrite (bd_of_lin d a u v i : bd_of Ds Rs d (fadd (fscale a u) v) i = _).
    rewrite (Hu2 i), (Hv2 i). unfold fzero. apply cong_eq; ring.
Qed.

(** A vector with pivot born by [r] is a chain at [r]. *)
Lemma piv_chain d r v i : is_piv p v i -> (i < csize Rs d)%nat -> crad Rs d i <= r -> chain_at p Rs d r v.
Proof.
  intros [_ Hz] Hi Hr. apply chain_iff. intros j Hj. destruct (le_lt_dec j i) as [H|H]; [|apply Hz; auto].
  exfalso. apply Hj. split; [lia|]. pose proof (vc_sorted _ _ _ _ _ VC d j i). lia.
Qed.

Lemma im_cycle d ims g : im_ok d ims -> In g ims -> veq p (bd_of Ds Rs d (vget (gvec g))) fzero.
Proof.
  intros IO Hg. destruct (io_pre _ _ IO g Hg) as (_ & _ & E & _). intros i.
  rewrite <- (bd_of_cong d _ _ E i). apply bd_bd.
Qed.

Lemma im_piv d ims g : im_ok d ims -> In g ims ->
  is_piv p (vget (gvec g)) (npiv (gvec g)) /\ (npiv (gvec g) < csize Rs d)%nat.
Proof.
  intros IO Hg. split.
  - apply npiv_piv; [apply (io_rng _ _ IO)|apply (io_nz _ _ IO)]; auto.
  - rewrite <- (io_len _ _ IO g Hg). apply npiv_lt. apply (io_nz _ _ IO); auto.
Qed.

(** Homology generators kept from the previous step. *)
Definition next_gens (d : nat) (ims : list imgen) : list gen :=
  map (fun g => ((crad Rs d (npiv (gvec g)), gdeath g), gvec g))
      (filter (fun g => crad Rs d (npiv (gvec g)) <? gdeath g) ims).

Lemma filter_map_comm {A B} (f : A -> B) (P : B -> bool) l : filter P (map f l) = map f (filter (fun x => P (f x)) l).
Proof. induction l as [|x l IH]; simpl; auto. destruct (P (f x)); simpl; rewrite IH; auto. Qed.

Lemma filter_split_length {A} (f : A -> bool) l :
  (length (filter f l) + length (filter (fun x => negb (f x)) l) = length l)%nat.
Proof. induction l as [|x l IH]; simpl; auto. destruct (f x); simpl; lia. Qed.

Lemma range_diff_length n l : NoDup l -> (forall k, In k l -> (k < n)%nat) -> (length (range_diff n l) + length l = n)%nat.
Proof.
  intros Hd Hl.
  assert (H := filter_split_length (fun k => negb (memn k l)) (seq 0 n)). rewrite seq_length in H.
  change (filter (fun k => negb (memn k l)) (seq 0 n)) with (range_diff n l) in H.
  assert (E : length (filter (fun k => negb (negb (memn k l))) (seq 0 n)) = length l).
  { apply Permutation_length. apply NoDup_Permutation; auto.
    - apply NoDup_filter, seq_NoDup.
    - intros x. rewrite filter_In, in_seq, negb_involutive, memn_In. split; [tauto|].
      intros Hx. split; auto. specialize (Hl x Hx). lia. }
  lia.
Qed.

Lemma NoDup_app_intro {A} (l1 l2 : list A) : NoDup l1 -> NoDup l2 -> (forall x, In x l1 -> In x l2 -> False) -> NoDup (l1 ++ l2).
Proof.
  intros H1 H2 H. induction H1 as [|x l Hx Hd IH]; simpl; auto. constructor.
  - rewrite in_app_iff. intros [Hi|Hi]; auto. apply (H x); simpl; auto.
  - apply IH. intros y Hy. apply H. simpl; auto.
Qed.

Lemma NoDup_map_inj {A B} (f : A -> B) l : NoDup l -> (forall x y, In x l -> In y l -> f x = f y -> x = y) -> NoDup (map f l).
Proof.
  intros Hd. induction Hd as [|x l Hx Hd IH]; intros H; simpl; constructor.
  - rewrite in_map_iff. intros (y & E & Hy). assert (y = x) by (apply H; simpl; auto). subst; auto.
  - apply IH. intros y z Hy Hz. apply H; simpl; auto.
Qed.

Lemma NoDup_map_eq {A B} (f : A -> B) l x y : NoDup (map f l) -> In x l -> In y l -> f x = f y -> x = y.
Proof.
  induction l as [|z l IH]; simpl; intros Hd Hx Hy E; [tauto|]. inversion Hd as [|? ? Hn Hd']; subst.
  destruct Hx as [->|Hx], Hy as [->|Hy]; auto.
  - elim Hn. rewrite E. apply in_map; auto.
  - elim Hn. rewrite <- E. apply in_map; auto.
Qed.

Lemma NoDup_map_filter {A B} (f : A -> B) P l : NoDup (map f l) -> NoDup (map f (filter P l)).
Proof.
  induction l as [|x l IH]; simpl; auto. intros H. inversion H as [|? ? Hn Hd]; subst.
  destruct (P x); simpl; auto. constructor; auto. intros Hi. apply Hn.
  apply in_map_iff in Hi. destruct Hi as (y & <- & Hy). apply in_map. apply filter_In in Hy. tauto.
Qed.

(** ** The outer step *)
Section Step.
Variables (d : nat) (ims : list imgen).
Hypothesis Hd : (d < length Ds)%nat.
Hypothesis IO : im_ok (S d) ims.
Let D := nth d Ds (Mat 0 []).
Let N := csize Rs (S d).
Let P := map (fun g => npiv (gvec g)) ims.

Local Lemma D_ncols : ncols D = N. Proof. apply (vc_ncols _ _ _ _ _ VC); auto. Qed.
Local Lemma D_nrows : nrows D = csize Rs d. Proof. apply (vc_nrows _ _ _ _ _ VC); auto. Qed.
Local Lemma D_rng : rng_mat p D.
Proof. intros k Hk i. apply (vc_red _ _ _ _ _ VC); auto. Qed.

Lemma bd_lc v i : bd_of Ds Rs (S d) v i = lc N v (fun l => cf D l) i.
Proof. unfold bd_of, lc. apply Zsum_ext. intros j Hj. simpl. unfold get. fold D. ring. Qed.

Lemma P_lt k : In k P -> (k < N)%nat.
Proof. unfold P. rewrite in_map_iff. intros (g & <- & Hg). apply (im_piv (S d) ims g IO Hg). Qed.

Lemma P_cycle k : In k P -> (k < ncols D)%nat /\
  exists c, is_piv p c k /\ veq p (lc (ncols D) c (fun l => cf D l)) fzero.
Proof.
  intros Hk. split; [rewrite D_ncols; apply P_lt; auto|]. rewrite D_ncols.
  unfold P in Hk. rewrite in_map_iff in Hk. destruct Hk as (g & <- & Hg).
  exists (vget (gvec g)). split; [apply (im_piv (S d) ims g IO Hg)|].
  intros i. rewrite <- bd_lc. apply (im_cycle (S d) ims g IO Hg).
Qed.

Lemma ph_dim_step : exists st,
  ph_dim D (nth (S d) Rs []) (nth d Rs []) max_rad p P N (next_gens (S d) ims) = Ok st /\
  im_ok d (st_im st) /\
  st_piv st = map (fun g => npiv (gvec g)) (st_im st) /\
  st_next st = next_gens d (st_im st) /\
  hom_ok (S d) ims (st_cur st).
Proof.
  pose proof p_pos as Hp2.
  pose proof D_ncols as Hnc. pose proof D_nrows as Hnr. pose proof D_rng as HDr.
  assert (HDwf : wf_mat D) by (apply (vc_wf _ _ _ _ _ VC); auto).
  unfold ph_dim. rewrite clear_cols_ok by (intros k Hk; rewrite Hnc; apply P_lt; auto). cbn [bind].
  destruct (gauss_run0 p (cleared D P) Hp) as (R & T & Eg & G).
  { apply cleared_wf; auto. }
  { apply cleared_rng; auto; lia. }
  { cbn [cleared nrows]. rewrite cleared_ncols, Hnc, Hnr. apply (vc_empty _ _ _ _ _ VC); auto. }
  rewrite Eg. cbn [bind]. rewrite Hnc.
  assert (HncA : ncols (cleared D P) = N) by (rewrite cleared_ncols; auto).
  assert (HrA : rng_mat p (cleared D P)) by (apply cleared_rng; auto; lia).
  set (NP := range_diff N P).
  assert (HNP : forall k, In k NP <-> (k < N)%nat /\ ~ In k P) by (intros k; apply in_range_diff).
  assert (HndP : NoDup P) by apply (io_nodup _ _ IO).
  assert (HlenNP : (length NP + length P = N)%nat).
  { apply range_diff_length; auto. intros k Hk. apply P_lt; auto. }
  assert (HRr : forall k, (k < N)%nat -> rng p (col R k)).
  { intros k Hk. apply (R_rng p D P R T Hp HDr P_cycle G). rewrite Hnc; auto. }
  assert (HRl : forall k, (k < N)%nat -> length (col R k) = csize Rs d).
  { intros k Hk. rewrite (go_lenR _ _ _ _ G) by (rewrite HncA; auto). auto. }
  assert (HTl : forall k, (k < N)%nat -> length (col T k) = N).
  { intros k Hk. rewrite (go_lenT _ _ _ _ G) by (rewrite HncA; auto). auto. }
  assert (HTr : forall k, (k < N)%nat -> rng p (col T k)).
  { intros k Hk. apply (go_rngT _ _ _ _ G). rewrite HncA; auto. }
  assert (HTp : forall k, (k < N)%nat -> is_piv p (cf T k) k).
  { intros k Hk. apply (T_piv p D P R T Hp G). rewrite Hnc; auto. }
  assert (Hprod : forall k, (k < N)%nat -> ~ In k P -> veq p (bd_of Ds Rs (S d) (cf T k)) (cf R k)).
  { intros k Hk Hn i. rewrite bd_lc. symmetry. rewrite <- Hnc.
    apply (full_product p D P R T P_cycle G k); auto. rewrite Hnc; auto. }
  assert (Hdist : forall k l, (k < N)%nat -> (l < N)%nat -> vany (col R k) = true -> vany (col R l) = true ->
            npiv (col R k) = npiv (col R l) -> k = l).
  { intros k l Hk Hl Vk Vl E.
    assert (X : forall k, vany (col R k) = true -> nzb R k = true).
    { intros x Vx. unfold nzb. destruct (Z.eqb_spec (index_pivot (col R x)) (-1)) as [Ex|]; auto.
      assert (vany (col R x) = false); [|congruence]. apply vany_false. apply index_pivot_m1; auto. }
    apply (nzb_distinct p (cleared D P) R T G HrA); auto; rewrite HncA; auto. }
  set (nz := filter (nzk R) NP). set (zs := filter (fun k => negb (nzk R k)) NP).
  assert (Hnz : forall k, In k nz <-> (k < N)%nat /\ ~ In k P /\ vany (col R k) = true).
  { intros k. unfold nz. rewrite filter_In, HNP. unfold nzk. tauto. }
  assert (Hzs : forall k, In k zs <-> (k < N)%nat /\ ~ In k P /\ vany (col R k) = false).
  { intros k. unfold zs. rewrite filter_In, HNP. unfold nzk. rewrite negb_true_iff. tauto. }
  assert (HndNP : NoDup NP) by apply NoDup_range_diff.
  assert (Hndnz : NoDup (map (fun k => npiv (col R k)) nz)).
  { apply NoDup_map_inj; [apply NoDup_filter; auto|]. intros x y Hx Hy. apply Hnz in Hx, Hy. apply Hdist; tauto. }
  assert (Hlennz : (length nz <= csize Rs d)%nat).
  { rewrite <- (map_length (fun k => npiv (col R k))). rewrite <- (seq_length (csize Rs d) 0).
    apply NoDup_incl_length; auto. intros x Hx. apply in_map_iff in Hx. destruct Hx as (k & <- & Hk).
    apply Hnz in Hk. apply in_seq. split; [lia|]. cbn [plus]. rewrite <- (HRl k) by tauto. apply npiv_lt. tauto. }
  rewrite (fold_cols R T _ _ max_rad N (length NP) N); cbn [st_piv st_next st_im st_cur length].
  2:{ rewrite (go_ncR _ _ _ _ G). auto. }
  2:{ rewrite (go_ncT _ _ _ _ G). auto. }
  2:{ auto. }
  2:{ reflexivity. }
  2:{ intros k Hk Hv. change (length (nth d Rs [])) with (csize Rs d). rewrite <- (HRl k Hk). apply npiv_lt; auto. }
  2:{ intros k Hk. apply HNP in Hk. tauto. }
  2:{ fold nz. rewrite (go_nrR _ _ _ _ G). cbn [cleared nrows]. rewrite Hnr. lia. }
  2:{ fold nz. pose proof (filter_split_length (nzk R) NP). fold nz in H. lia. }
  2:{ fold zs. pose proof (filter_split_length (nzk R) NP) as H. fold nz zs in H.
      unfold next_gens. rewrite map_length.
      assert (Nat.le (length (filter (fun g : imgen => crad Rs (S d) (npiv (gvec g)) <? gdeath g) ims)) (length P)).
      { unfold P. rewrite map_length.
        clear. pose proof (filter_split_length (fun g : imgen => crad Rs (S d) (npiv (gvec g)) <? gdeath g) ims) as H.
        unfold Nat.le. etransitivity; [|apply Nat.eq_le_incl, H]. apply Nat.le_add_r. }
      lia. }
  fold nz. fold zs.
  eexists. split; [reflexivity|]. cbn [st_piv st_next st_im st_cur app].
  (* birth before death *)
  assert (Hbd : forall k, In k nz -> crad Rs d (npiv (col R k)) <= crad Rs (S d) k).
  { intros k Hk. apply Hnz in Hk. destruct Hk as (Hk & HnP & Hv).
    destruct (Z_le_gt_dec (crad Rs d (npiv (col R k))) (crad Rs (S d) k)) as [|Hgt]; auto. exfalso.
    destruct (npiv_piv (col R k) (HRr k Hk) Hv) as [Hne _]. apply Hne.
    rewrite <- (Hprod k Hk HnP (npiv (col R k))). unfold bd_of.
    apply Zsum_cong0. intros j Hj. destruct (le_lt_dec j k) as [Hjk|Hjk].
    - destruct (Z.eq_dec (bd_entry Ds (S d) (npiv (col R k)) j) 0) as [E0|E0].
      + rewrite E0. apply cong_eq; ring.
      + pose proof (vc_face _ _ _ _ _ VC d (npiv (col R k)) j Hj E0).
        pose proof (vc_sorted _ _ _ _ _ VC (S d) j k). unfold N in Hk. lia.
    - destruct (HTp k Hk) as [_ HT0]. rewrite (HT0 j Hjk). apply cong_eq; ring. }
  assert (IM : im_ok d (map (mk_im R T (nth (S d) Rs []) max_rad) nz)).
  { constructor.
    - intros g Hg. apply in_map_iff in Hg. destruct Hg as (k & <- & Hk). apply Hnz in Hk. cbn. apply HRl; tauto.
    - intros g Hg. apply in_map_iff in Hg. destruct Hg as (k & <- & Hk). apply Hnz in Hk. cbn. apply HRr; tauto.
    - intros g Hg. apply in_map_iff in Hg. destruct Hg as (k & <- & Hk). apply Hnz in Hk. cbn. tauto.
    - rewrite map_map. cbn. exact Hndnz.
    - intros g Hg. apply in_map_iff in Hg. destruct Hg as (k & <- & Hk). cbn. split; auto. split.
      + apply Hbd; auto.
      + apply Hnz in Hk. apply (vc_max _ _ _ _ _ VC (S d) k). tauto.
    - intros g Hg. apply in_map_iff in Hg. destruct Hg as (k & <- & Hk). apply Hnz in Hk.
      destruct Hk as (Hk & HnP & Hv). cbn [mk_im snd gvec fst gdeath].
      split; [apply HTl; auto|]. split; [apply HTr; auto|]. split; [apply Hprod; auto|].
      exists k. repeat split; auto; apply HTp; auto.
    - intros r v. rewrite bounds_iff.
      destruct (prefix_of (S d) r) as (m & Hm & Hpre).
      transitivity (span p (cfam D m) v).
      + split.
        * intros (w & Hw & E). rewrite chain_iff in Hw. apply (span_veq p _ (lc m w (fun l => cf D l))).
          -- intros i. rewrite <- (E i), bd_lc. unfold lc. symmetry. apply Zsum_cong_trunc; [exact Hm|].
             intros j Hj. rewrite (Hw j); [apply cong_eq; ring|]. rewrite Hpre. lia.
          -- apply lc_in_span. discriminate.
        * intros Hs. apply span_lc in Hs. destruct Hs as (c & Hc & E). exists c. split.
          -- apply chain_iff. intros i Hi. rewrite Hc; [reflexivity|]. rewrite Hpre in Hi. right; lia.
          -- intros i. rewrite (E i), bd_lc. unfold lc. apply Zsum_cong_trunc; [exact Hm|].
             intros j Hj. rewrite Hc by (right; lia). apply cong_eq; ring.
      + rewrite (cleared_prefix p D P R T Hp P_cycle G m v) by (rewrite Hnc; exact Hm).
        split; apply span_incl.
        * intros u (k & Hk & _ & ->). destruct (vany (col R k)) eqn:Ev.
          -- apply span_in. exists (mk_im R T (nth (S d) Rs []) max_rad k). cbn. split; [|split; auto].
             ++ apply in_map. apply Hnz. split; [unfold N; lia|]. split; auto.
                apply (R_nonzero_not_P p D P R T P_cycle G k); auto. rewrite Hnc. unfold N. lia.
             ++ apply (proj2 (Hpre k)); auto.
          -- apply span_0. intros i. rewrite (proj1 (vany_false _) Ev i). reflexivity.
        * intros u (g & Hg & Hr & ->). apply in_map_iff in Hg. destruct Hg as (k & <- & Hk).
          cbn in *. apply Hnz in Hk. apply span_in. exists k. split; [|split; auto].
          apply Hpre. split; [apply Hk|exact Hr]. }
  split; [exact IM|]. split; [rewrite map_map; reflexivity|]. split.
  { unfold next_gens. rewrite filter_map_comm, map_map. reflexivity. }
  (* homology *)
  assert (HTn : forall k, (k < N)%nat -> vany (col T k) = true /\ npiv (col T k) = k).
  { intros k Hk. assert (V : vany (col T k) = true).
    { destruct (vany (col T k)) eqn:Ev; auto. destruct (HTp k Hk) as [Hne _]. elim Hne.
      rewrite (proj1 (vany_false _) Ev k). reflexivity. }
    split; auto. apply (is_piv_unique p (cf T k)); auto. apply npiv_piv; auto. }
  assert (Hin : forall g, In g (next_gens (S d) ims ++ map (mk_cur T (nth (S d) Rs []) max_rad) zs) ->
     (exists h, In h ims /\ crad Rs (S d) (npiv (gvec h)) < gdeath h /\
                g = ((crad Rs (S d) (npiv (gvec h)), gdeath h), gvec h)) \/
     (exists k, In k zs /\ g = ((crad Rs (S d) k, max_rad), col T k))).
  { intros g Hg. apply in_app_iff in Hg. destruct Hg as [Hg|Hg].
    - left. apply in_map_iff in Hg. destruct Hg as (h & <- & Hh). apply filter_In in Hh. exists h.
      split; [tauto|]. split; [lia|reflexivity].
    - right. apply in_map_iff in Hg. destruct Hg as (k & <- & Hk). exists k. auto. }
  constructor.
  - intros g Hg. destruct (Hin g Hg) as [(h & Hh & _ & ->)|(k & Hk & ->)]; cbn.
    + apply (io_len _ _ IO); auto.
    + apply HTl. apply Hzs; auto.
  - intros g Hg. destruct (Hin g Hg) as [(h & Hh & _ & ->)|(k & Hk & ->)]; cbn.
    + apply (io_rng _ _ IO); auto.
    + apply HTr. apply Hzs; auto.
  - intros g Hg. destruct (Hin g Hg) as [(h & Hh & _ & ->)|(k & Hk & ->)]; cbn.
    + apply (io_nz _ _ IO); auto.
    + apply HTn. apply Hzs; auto.
  - intros g Hg. destruct (Hin g Hg) as [(h & Hh & _ & ->)|(k & Hk & ->)]; cbn; auto.
    destruct (HTn k) as [_ E]; [apply Hzs; auto|]. rewrite E. reflexivity.
  - rewrite map_app. apply NoDup_app_intro.
    + unfold next_gens. rewrite map_map. cbn. apply NoDup_map_filter. apply (io_nodup _ _ IO).
    + rewrite map_map. cbn. apply NoDup_map_inj; [apply NoDup_filter; auto|].
      intros x y Hx Hy E. apply Hzs in Hx, Hy.
      destruct (HTn x) as [_ Ex]; [tauto|]. destruct (HTn y) as [_ Ey]; [tauto|]. congruence.
    + intros x Hx Hy. apply in_map_iff in Hx. destruct Hx as (g & <- & Hg).
      apply in_map_iff in Hg. destruct Hg as (h & <- & Hh). apply filter_In in Hh. cbn [snd] in Hy.
      apply in_map_iff in Hy. destruct Hy as (g & E & Hg). apply in_map_iff in Hg. destruct Hg as (k & <- & Hk).
      cbn in E. apply Hzs in Hk. destruct (HTn k) as [_ Ek]; [tauto|].
      destruct Hk as (_ & HnP & _). apply HnP. unfold P. apply in_map_iff. exists h. split; [congruence|tauto].
  - intros g Hg. destruct (Hin g Hg) as [(h & Hh & _ & ->)|(k & Hk & ->)]; cbn.
    + apply (im_cycle (S d) ims); auto.
    + apply Hzs in Hk. intros i. rewrite (Hprod k ltac:(tauto) ltac:(tauto) i).
      rewrite (proj1 (vany_false _) (proj2 (proj2 Hk)) i). reflexivity.
  - intros g Hg. destruct (Hin g Hg) as [(h & Hh & Hl & ->)|(k & Hk & ->)]; cbn.
    + pose proof (io_bar _ _ IO h Hh). lia.
    + apply Hzs in Hk. pose proof (vc_max _ _ _ _ _ VC (S d) k). unfold N in Hk. lia.
  - intros g Hg. destruct (Hin g Hg) as [(h & Hh & Hl & ->)|(k & Hk & ->)]; cbn.
    + intros _. exists h. auto.
    + lia.
  - intros g h Hg Hh. destruct (Hin g Hg) as [(h' & Hh' & Hl & ->)|(k & Hk & ->)]; cbn.
    + intros E. rewrite (NoDup_map_eq _ _ h' h (io_nodup _ _ IO) Hh' Hh E). reflexivity.
    + intros E. apply Hzs in Hk. destruct (HTn k) as [_ Ek]; [tauto|]. exfalso. apply (proj1 (proj2 Hk)).
      unfold P. apply in_map_iff. exists h. split; auto. congruence.
  - intros r v Hr Hv. destruct (prefix_of (S d) r) as (m & Hm & Hpre).
    assert (Hv' := proj1 (cycle_iff _ _ _) Hv). destruct Hv' as [Hv1 Hv2].
    rewrite chain_iff in Hv1.
    apply (span_by_pivots p Hp (cycle_at p Ds Rs (S d) r) _ m); auto.
    + intros u w a z. apply cycle_closed.
    + intros u [(g & Hg & Hal & ->)|(g & Hg & Hal & ->)].
      * apply cycle_iff. destruct (Hin g Hg) as [(h & Hh & Hl & ->)|(k & Hk & ->)]; cbn in *.
        -- split; [|apply (im_cycle (S d) ims); auto].
           apply (piv_chain (S d) r _ (npiv (gvec h))); [apply (im_piv _ _ _ IO Hh)|apply (im_piv _ _ _ IO Hh)|lia].
        -- apply Hzs in Hk. split.
           ++ apply (piv_chain (S d) r _ k); [apply HTp; tauto|apply Hk|lia].
           ++ intros i. rewrite (Hprod k ltac:(tauto) ltac:(tauto) i).
              rewrite (proj1 (vany_false _) (proj2 (proj2 Hk)) i). reflexivity.
      * apply cycle_iff. split; [|apply (im_cycle (S d) ims); auto].
        pose proof (io_bar _ _ IO g Hg).
        apply (piv_chain (S d) r _ (npiv (gvec g))); [apply (im_piv _ _ _ IO Hg)|apply (im_piv _ _ _ IO Hg)|lia].
    + intros z i Hi Hz Hzp. assert (Hi' := proj2 (Hpre i) Hi). destruct Hi' as [HiN Hir].
      destruct (in_dec Nat.eq_dec i P) as [HiP|HiP].
      * unfold P in HiP. apply in_map_iff in HiP. destruct HiP as (h & Eh & Hh).
        destruct (im_piv _ _ _ IO Hh) as [Hpv _]. rewrite Eh in Hpv.
        exists (vget (gvec h)). split; [|exact Hpv].
        destruct (Z_le_gt_dec (gdeath h) r) as [Hdr|Hdr].
        -- right. exists h. auto.
        -- left. exists ((crad Rs (S d) (npiv (gvec h)), gdeath h), gvec h). cbn. split; [|split; auto].
           ++ apply in_app_iff. left. unfold next_gens. apply in_map_iff. exists h. split; auto.
              apply filter_In. split; auto. rewrite Eh. lia.
           ++ rewrite Eh. lia.
      * assert (R0 : forall x, get R x i = 0).
        { apply (cycle_pivot p D P R T Hp HDr P_cycle G z i); auto.
          - rewrite Hnc; auto.
          - rewrite Hnc. intros x. rewrite <- bd_lc. apply (proj1 (cycle_iff _ _ _) Hz). }
        exists (cf T i). split; [|apply HTp; auto]. left. exists ((crad Rs (S d) i, max_rad), col T i). cbn.
        split; [|split; auto]. apply in_app_iff. right. apply in_map_iff. exists i. split; auto.
        apply Hzs. split; auto. split; auto. apply vany_false. intros x. apply R0.
    + intros i Hi. apply Hv1. rewrite Hpre. lia.
Qed.
End Step.
End Complex.
