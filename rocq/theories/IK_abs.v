(** * [image_kernel] in the absolute case: the returned bases *)
From Verif Require Import Base ListX SortX Lin Gauss_model Gauss_arith Gauss_col Gauss_bar Basis_model Basis_props PH_model IK_model IK_pivot IK_lin IK_phase IK_kphase IK_inv IK_loop IK_post Spec_PH Spec_IK.
From Verif Require LC_props.
From Coq Require Import Znumtheory Sorting.Sorted Sorting.Permutation.
Local Open Scope Z_scope.

Lemma cong_mod_iff p x y : 0 < p -> (x mod p = y mod p <-> cong p x y).
Proof.
  intros Hp. unfold cong. split; intros H.
  - apply Z.mod_divide; [lia|]. rewrite Zminus_mod, H, Z.sub_diag, Zmod_0_l. auto.
  - destruct H as [q Hq]. replace x with (y + q * p) by lia. apply Z_mod_plus_full.
Qed.

Lemma living_sorted b b' N pi rho r s : b_dim b = length (b_bars b) -> b_dim b = N -> sorted_as b b' N pi rho -> (s < N)%nat ->
  alive N (lo b') (hi b') r s = living (b_bars b) r (nth s pi 0%nat).
Proof.
  intros Hd Hn S Hs. unfold alive, living, lo, hi. rewrite (sa_nth _ _ _ _ _ S s Hs).
  destruct (bj_2 _ _ _ (sa_bij _ _ _ _ _ S) s Hs) as [X _]. rewrite <- Hd, Hn.
  replace (Nat.ltb s N) with true by (symmetry; apply Nat.ltb_lt; auto).
  replace (Nat.ltb (nth s pi 0%nat) N) with true by (symmetry; apply Nat.ltb_lt; auto). reflexivity.
Qed.

Lemma living_lt bars r i : living bars r i = true -> (i < length bars)%nat.
Proof. unfold living. rewrite !andb_true_iff, Nat.ltb_lt. tauto. Qed.
Lemma living_iff bars r i : living bars r i = true <-> (i < length bars)%nat /\ fst (nth i bars (0, 0)) <= r < snd (nth i bars (0, 0)).
Proof. unfold living. rewrite !andb_true_iff, Nat.ltb_lt, Z.leb_le, Z.ltb_lt. tauto. Qed.

Lemma null_sorted p b b' N pi rho r v : 0 < p -> b_dim b = length (b_bars b) -> b_dim b = N -> sorted_as b b' N pi rho ->
  (null_at p (b_bars b) r v <-> zon p (alive N (lo b') (hi b') r) (fun s => v (nth s pi 0%nat))).
Proof.
  intros Hp Hd Hn S. split.
  - intros H. apply zon_intro. intros s Hs. assert (X : (s < N)%nat) by (apply alive_iff in Hs; tauto).
    rewrite (living_sorted b b' N pi rho r s) in Hs by auto. apply mod_cong; auto.
  - intros H i Hi. pose proof (living_lt _ _ _ Hi) as X. rewrite <- Hd, Hn in X.
    destruct (bj_1 _ _ _ (sa_bij _ _ _ _ _ S) i X) as [Y1 Y2].
    apply mod_cong; auto. rewrite <- Y2. apply (zon_at p _ _ _ H). rewrite (living_sorted b b' N pi rho r _) by auto. rewrite Y2. auto.
Qed.

Lemma nullb_dec p bars r v : {null_at p bars r v} + {~ null_at p bars r v}.
Proof.
  destruct (forallb (fun i => negb (living bars r i) || (v i mod p =? 0)) (seq 0 (length bars))) eqn:E.
  - left. intros i Hi. rewrite forallb_forall in E. specialize (E i). rewrite Hi in E. cbn in E.
    apply Z.eqb_eq. apply E. apply in_seq. apply living_lt in Hi. lia.
  - right. intros H. assert (forallb (fun i => negb (living bars r i) || (v i mod p =? 0)) (seq 0 (length bars)) = true); [|congruence].
    apply forallb_forall. intros i _. destruct (living bars r i) eqn:L; auto. cbn. apply Z.eqb_eq. apply H. auto.
Qed.

Section Abs.
Variables (rnd : Z -> Z) (p : Z) (A B : basis) (F : mat).
Hypothesis HIn : ik_input rnd p A B F.
Notation n := (ncols F).
Notation m := (nrows F).

Let p_pos : 0 < p. Proof. destruct (in_prime _ _ _ _ _ HIn). lia. Qed.

Section Sorted.
Variables (A' B' : basis) (F2 : mat) (piA rhoA piB rhoB : list nat).
Hypothesis SA : sorted_as A A' n piA rhoA.
Hypothesis SB : sorted_as B B' m piB rhoB.
Hypothesis Hr2 : nrows F2 = m.
Hypothesis Hc2 : ncols F2 = n.
Hypothesis HF2 : forall i j, (i < m)%nat -> (j < n)%nat -> get F2 i j = get F (nth i piB 0%nat) (nth j piA 0%nat).

Let HAd : b_dim A = length (b_bars A). Proof. apply (in_A _ _ _ _ _ HIn). Qed.
Let HBd : b_dim B = length (b_bars B). Proof. apply (in_B _ _ _ _ _ HIn). Qed.

Lemma mapply_sorted y s : (s < m)%nat -> mapply F y (nth s piB 0%nat) = lc n (fun t => y (nth t piA 0%nat)) (fF F2) s.
Proof.
  intros Hs. unfold mapply, lc. rewrite <- (bij_sum n piA rhoA _ (sa_bij _ _ _ _ _ SA)). apply Zsum_ext. intros t Ht.
  unfold fF. fold (get F2 s t). rewrite HF2 by auto. ring.
Qed.

Lemma restr_sorted v r t : (t < n)%nat -> restr (b_bars A) r v (nth t piA 0%nat) = on (alive n (lo A') (hi A') r) (fun s => v (nth s piA 0%nat)) t.
Proof.
  intros Ht. unfold restr, on. rewrite (living_sorted A A' n piA rhoA r t); auto. rewrite <- (in_cols _ _ _ _ _ HIn). auto.
Qed.

Lemma lc_dom N (c c' : nat -> Z) V i : (forall k, (k < N)%nat -> c k = c' k) -> lc N c V i = lc N c' V i.
Proof. intros H. unfold lc. apply Zsum_ext. intros k Hk. rewrite H; auto. Qed.

Lemma mapply_restr v r s : (s < m)%nat ->
  mapply F (restr (b_bars A) r v) (nth s piB 0%nat) = lc n (on (alive n (lo A') (hi A') r) (fun s => v (nth s piA 0%nat))) (fF F2) s.
Proof. intros Hs. rewrite mapply_sorted by auto. apply lc_dom. intros t Ht. apply restr_sorted; auto. Qed.

Lemma ker_sorted r v : ker_at p (b_bars A) (b_bars B) F r v <-> kerF p A' B' F2 r (fun t => v (nth t piA 0%nat)).
Proof.
  unfold ker_at, kerF. rewrite (null_sorted p B B' m piB rhoB) by (auto; apply HIn). rewrite Hr2, Hc2.
  split; intros H; apply zon_intro; intros s Hs; assert (X : (s < m)%nat) by (apply alive_iff in Hs; tauto); apply (zon_at p _ _ s) in H; auto; cbn beta in *;
    [rewrite mapply_restr in H by auto|rewrite mapply_restr by auto]; auto.
Qed.

Lemma im_sorted r v : im_at p (b_bars A) (b_bars B) F r v <-> imF p A' B' F2 r (fun t => v (nth t piB 0%nat)).
Proof.
  unfold im_at, imF. rewrite Hr2, Hc2. split.
  - intros (x & Hx). rewrite (null_sorted p B B' m piB rhoB) in Hx by (auto; apply HIn).
    exists (fun t => x (nth t piA 0%nat)). intros s Hs. assert (X : (s < m)%nat) by (apply alive_iff in Hs; tauto).
    apply (zon_at p _ _ s) in Hx; auto. cbn beta in Hx. rewrite mapply_restr in Hx by auto.
    destruct Hx as [q Hq]. exists q. lia.
  - intros (x & Hx). exists (fun j => x (nth j rhoA 0%nat)). rewrite (null_sorted p B B' m piB rhoB) by (auto; apply HIn).
    apply zon_intro. intros s Hs. assert (X : (s < m)%nat) by (apply alive_iff in Hs; tauto).
    rewrite mapply_restr by auto. rewrite (lc_dom n _ (on (alive n (lo A') (hi A') r) x)).
    + specialize (Hx s Hs). destruct Hx as [q Hq]. exists q. lia.
    + intros t Ht. unfold on. destruct (bj_2 _ _ _ (sa_bij _ _ _ _ _ SA) t Ht) as [_ ->]. reflexivity.
Qed.
End Sorted.



Lemma take_rows_get M rows i j : (i < length rows)%nat -> (j < ncols M)%nat -> get (take_rows M rows) i j = get M (nth i rows 0%nat) j.
Proof. intros Hi Hj. unfold get. rewrite col_take_rows by auto. rewrite (vget_nth_map _ 0%nat) by auto. reflexivity. Qed.

Lemma wf_take_rows M rows : wf_mat (take_rows M rows).
Proof. unfold take_rows, wf_mat. cbn [cols nrows]. apply Forall_forall. intros c Hc. apply in_map_iff in Hc. destruct Hc as (c0 & <- & _). apply map_length. Qed.

Lemma take_rows_err_bij M N pi rho : nrows M = N -> bij N pi rho -> take_rows_err M rho = Ok (take_rows M rho).
Proof.
  intros HN Hb. unfold take_rows_err. replace (forallb _ rho) with true; auto. symmetry. apply forallb_forall.
  intros i Hi. apply Nat.ltb_lt. apply In_nth with (d := 0%nat) in Hi. destruct Hi as (s & Hs & <-). rewrite HN. apply (bj_1 _ _ _ Hb). rewrite <- (bj_rho _ _ _ Hb). auto.
Qed.

Theorem image_kernel_abs : exists Im Ker Pre, image_kernel rnd A B F p 0 = Ok (Im, Some Ker, Pre) /\
  over Im B /\ over Ker A /\ nrows Pre = b_dim A /\ ncols Pre = b_dim Im /\
  (forall r, quotient_basis p (ker_at p (b_bars A) (b_bars B) F r) (null_at p (b_bars A) r) (b_dim Ker) (column (b_coords Ker))
      (fun k => living (b_bars Ker) r k = true)) /\
  (forall r, quotient_basis p (im_at p (b_bars A) (b_bars B) F r) (null_at p (b_bars B) r) (b_dim Im) (column (b_coords Im))
      (fun k => living (b_bars Im) r k = true /\ ~ null_at p (b_bars B) r (column (b_coords Im) k))) /\
  (forall k r, (k < b_dim Im)%nat -> fst (nth k (b_bars Im) (0, 0)) <= r -> im_at p (b_bars A) (b_bars B) F r (column (b_coords Im) k)) /\
  (calm_bars (b_bars A) ->
     (forall r, quotient_basis p (im_at p (b_bars A) (b_bars B) F r) (null_at p (b_bars B) r) (b_dim Im) (column (b_coords Im))
        (fun k => living (b_bars Im) r k = true)) /\
     (forall k i, (k < b_dim Im)%nat -> (i < b_dim B)%nat -> mapply F (column Pre k) i mod p = column (b_coords Im) k i mod p)) /\
  (forall k i, 0 <= column (b_coords Im) k i) /\ (forall k i, 0 <= column (b_coords Ker) k i) /\
  (forall k i, (k < b_dim Im)%nat -> (i < b_dim B)%nat -> column (b_coords Im) k i mod p <> 0 ->
     fst (nth i (b_bars B) (0, 0)) <= fst (nth k (b_bars Im) (0, 0))) /\
  morphism p (b_bars Ker) (b_bars A) (b_coords Ker) /\
  (forall x, In x (b_bars Ker) -> exists y, In y (b_bars A ++ b_bars B) /\ (fst x = fst y \/ fst x = snd y)) /\
  (forall x, In x (b_bars Im) -> exists y, In y (b_bars A) /\ fst x = fst y) /\
  ((forall r v, im_at p (b_bars A) (b_bars B) F r v -> null_at p (b_bars B) r v) -> b_dim Im = 0%nat).
Proof.
  destruct HIn as [Hp HA HB Hbrk Hrows Hcols Hwf Hnn Hmor Hpos Hdom].
  pose proof HA as (HAf & HAd & HAn). pose proof HB as (HBf & HBd & HBn).
  destruct (order_B_spec rnd B F HB Hbrk Hrows Hwf) as (B' & F1 & rhoB & piB & EB & SB & Hbrk' & R1 & C1 & W1 & G1).
  destruct (order_A0_spec rnd A F1 HA Hdom ltac:(congruence) W1) as (A' & F2 & rhoA & piA & EA & SA & R2 & C2 & W2 & G2 & Hsrt).
  rewrite R1 in R2. rewrite C1 in C2, G2, Hsrt, SA.
  assert (G : forall i j, (i < m)%nat -> (j < n)%nat -> get F2 i j = get F (nth i piB 0%nat) (nth j piA 0%nat)).
  { intros i j Hi Hj. rewrite G2 by auto. apply G1; auto. apply (bj_2 _ _ _ (sa_bij _ _ _ _ _ SA)). auto. }
  pose proof (sa_bij _ _ _ _ _ SA) as BA. pose proof (sa_bij _ _ _ _ _ SB) as BB.
  pose proof (sa_ok _ _ _ _ _ SA) as (A'f & A'd & A'n). pose proof (sa_ok _ _ _ _ _ SB) as (B'f & B'd & B'n).
  pose proof (sa_dim _ _ _ _ _ SA) as A'dim. pose proof (sa_dim _ _ _ _ _ SB) as B'dim.
  destruct (loop_result p A' B' F2) as (ims & ker & EL & EI & EK & R & RN); auto; try congruence.
  { rewrite C2. intros i Hi. apply A'n. apply nth_In. lia. }
  { rewrite R2. intros i Hi. apply B'n. apply nth_In. lia. }
  { rewrite C2. exact Hsrt. }
  { rewrite C2, R2. intros j i Hj Hi Hn. unfold lo, hi. rewrite (sa_nth _ _ _ _ _ SA j Hj), (sa_nth _ _ _ _ _ SB i Hi).
    destruct (bj_2 _ _ _ BA j Hj) as [Xa _]. destruct (bj_2 _ _ _ BB i Hi) as [Xb _].
    apply Hmor; try lia. intros E. apply Hn. unfold fF. fold (get F2 i j). rewrite G by auto. apply mod_cong; auto. }
  { intros j i. unfold fF. fold (get F2 i j). destruct (lt_dec j n) as [Hj|Hj].
    - destruct (lt_dec i m) as [Hi|Hi]; [rewrite G by auto; apply Hnn|]. unfold get. rewrite vget_out; [lia|]. rewrite wf_col; auto; lia.
    - unfold get. rewrite vget_out; [lia|]. unfold col. rewrite nth_overflow; [cbn; lia|]. unfold ncols in C2 at 1. unfold vec in *. lia. }
  (* unfolding the function *)
  clear HAf HBf A'f B'f.
  unfold image_kernel. rewrite Hrows, Hcols, !Nat.eqb_refl. cbn [negb orb]. rewrite EB. cbn [bind]. rewrite EA. cbn [bind].
  rewrite A'dim. replace (map (fun j : nat => ICol (fst (nth j (b_bars A') (0, 0))) 0 (col F2 j) (vunit n j) (-2)) (seq 0 n)) with (ims0 A' F2)
    by (unfold ims0; rewrite C2; reflexivity).
  change (zunique (changes_list A' ++ changes_list B')) with (radii A' B'). rewrite EL. cbn [bind]. rewrite EI. cbn [bind].
  rewrite Hbrk'. cbn [orb Nat.ltb Nat.leb]. rewrite EK. cbn [bind]. rewrite B'dim.
  assert (Lims : length ims = n) by (rewrite (re_ilen _ _ _ _ _ _ R); auto).
  set (CI := Mat m (map ic_col ims)).
  rewrite (take_rows_err_bij CI m piB rhoB eq_refl BB). cbn [bind skipn].
  set (ibars := map (fun c => (ic_birth c, ic_death c)) ims).
  replace (Mat (nrows (take_rows CI rhoB)) (cols (take_rows CI rhoB))) with (take_rows CI rhoB) by reflexivity.
  assert (LCI : ncols CI = n) by (unfold ncols, CI; cbn [cols]; rewrite map_length; auto).
  destruct (post_spec rnd ibars B (take_rows CI rhoB) true) as (ib & Im & oI & lI & P1 & P2 & P3 & [SInd SIin] & P5 & P6 & P7 & P8 & P9 & P10 & P11 & P12 & P13 & P14).
  { unfold ibars, ncols, take_rows, CI. cbn [cols]. rewrite !map_length. auto. }
  { cbn [nrows take_rows]. rewrite (bj_rho _ _ _ BB). auto. }
  { apply wf_take_rows. }
  { intros _ E. apply (f_equal (@length _)) in E. unfold ibars in E. rewrite map_length in E. cbn in E. lia. }
  assert (PF : unit -> b_flat Im = false /\ b_sorted Im = true) by auto. clear P10 P12.
  rewrite P1. cbn [bind]. rewrite Nat.sub_0_r.
  set (CT := Mat n (@map icol (list Z) (fun c => ic_T c) ims)).
  rewrite (take_rows_err_bij CT n piA rhoA eq_refl BA). cbn [bind]. rewrite P2, P3. cbn [bind].
  set (PM := Mat (nrows (take_rows CT rhoA)) (mask_filter (well_defined ibars) (cols (take_rows CT rhoA)))).
  assert (Lib : length ibars = n) by (unfold ibars; rewrite map_length; auto).
  destruct (P14 _ (cols (take_rows CT rhoA)) []) as [Q1 Q2].
  { unfold take_rows, CT. cbn [cols]. rewrite !map_length. lia. }
  rewrite (take_cols_err_ok PM oI) by (intros j Hj; unfold ncols, PM; cbn [cols]; unfold vec in *; rewrite Q1; auto). cbn [bind].
  set (CK := Mat n (map kc_col ker)).
  rewrite (take_rows_err_bij CK n piA rhoA eq_refl BA). cbn [bind].
  set (kbars := map (fun k => (kc_birth k, kc_death k)) ker).
  destruct (post_spec rnd kbars A (take_rows CK rhoA) false) as (kb_ & Ker & oK & lK & K1 & K2 & K3 & [SKnd SKin] & K5 & K6 & K7 & K8 & K9 & K10 & K11 & K12 & K13 & K14).
  { unfold kbars, ncols, take_rows, CK. cbn [cols]. rewrite !map_length. auto. }
  { cbn [nrows take_rows]. rewrite (bj_rho _ _ _ BA). auto. }
  { apply wf_take_rows. }
  { discriminate. }
  assert (KF : unit -> b_flat Ker = false /\ b_sorted Ker = true) by auto. clear K10 K12.
  rewrite K1. cbn [bind]. rewrite K2. cbn [bind].
  exists Im, Ker, (take_cols PM oI). split; [reflexivity|].
  (* columns of the coordinates *)
  assert (Lkb : length kbars = length ker) by (unfold kbars; apply map_length).
  assert (HlI : forall t, (t < length lI)%nat -> (nth t lI 0 < n)%nat).
  { intros t Ht. assert (In (nth t lI 0%nat) lI) by (apply nth_In; auto). apply SIin in H. lia. }
  assert (HlK : forall t, (t < length lK)%nat -> (nth t lK 0 < length ker)%nat).
  { intros t Ht. assert (In (nth t lK 0%nat) lK) by (apply nth_In; auto). apply SKin in H. lia. }
  assert (Nib : forall j, (j < n)%nat -> nth j ibars (0, 0) = (lo A' j, ic_death (nth j ims dI))).
  { intros j Hj. unfold ibars. rewrite (nth_map _ _ _ dI) by lia. f_equal. rewrite (re_ibirth _ _ _ _ _ _ R) by lia. reflexivity. }
  assert (Nkb : forall k, (k < length ker)%nat -> nth k kbars (0, 0) = (kb ker k, kd ker k)).
  { intros k Hk. unfold kbars. rewrite (nth_map _ _ _ dK) by lia. reflexivity. }
  assert (LCK : ncols CK = length ker) by (unfold ncols, CK; cbn [cols]; apply map_length).
  assert (OI : over Im B).
  { destruct (PF tt). split; [|rewrite P8; split; auto; split; auto; split; auto; split; [|split]].
    + split; auto. rewrite P9, P7, map_length. split; auto. intros x Hx. apply in_map_iff in Hx. destruct Hx as (k & <- & Hk). apply SIin; auto.
    + cbn [nrows take_cols take_rows]. rewrite (bj_rho _ _ _ BB). auto.
    + unfold ncols, take_cols. cbn [cols]. rewrite map_length. auto.
    + apply take_cols_shape; [apply wf_take_rows|]. intros j Hj. apply SIin in Hj. unfold ncols, take_rows. cbn [cols]. rewrite map_length. fold (ncols CI). lia.
  }
  assert (OK : over Ker A).
  { destruct (KF tt). split; [|rewrite K8; split; auto; split; auto; split; auto; split; [|split]].
    + split; auto. rewrite K9, K7, map_length. split; auto. intros x Hx. apply in_map_iff in Hx. destruct Hx as (k & <- & Hk). apply SKin; auto.
    + cbn [nrows take_cols take_rows]. rewrite (bj_rho _ _ _ BA). auto.
    + unfold ncols, take_cols. cbn [cols]. rewrite map_length. auto.
    + apply take_cols_shape; [apply wf_take_rows|]. intros j Hj. apply SKin in Hj. unfold ncols, take_rows. cbn [cols]. rewrite map_length. fold (ncols CK). lia.
  }
  set (VI := fun j i => if Nat.ltb i m then fC ims j (nth i rhoB 0%nat) else 0).
  set (VK := fun k i => if Nat.ltb i n then fK ker k (nth i rhoA 0%nat) else 0).
  assert (CIm : forall t, (t < length lI)%nat -> forall i, column (b_coords Im) t i = VI (nth t lI 0%nat) i).
  { intros t Ht i. unfold column, VI. rewrite P8. unfold get. rewrite nth_take_cols by auto. 
    rewrite col_take_rows by (rewrite LCI; auto).
    destruct (Nat.ltb_spec i m) as [Hi|Hi].
    - rewrite (vget_nth_map _ 0%nat) by (rewrite (bj_rho _ _ _ BB); auto). unfold fC, CI, col. cbn [cols].
      rewrite (nth_map _ _ _ dI) by (rewrite Lims; auto). reflexivity.
    - apply vget_out. rewrite map_length, (bj_rho _ _ _ BB). auto. }
  assert (CKer : forall t, (t < length lK)%nat -> forall i, column (b_coords Ker) t i = VK (nth t lK 0%nat) i).
  { intros t Ht i. unfold column, VK. rewrite K8. unfold get. rewrite nth_take_cols by auto. 
    rewrite col_take_rows by (rewrite LCK; auto).
    destruct (Nat.ltb_spec i n) as [Hi|Hi].
    - rewrite (vget_nth_map _ 0%nat) by (rewrite (bj_rho _ _ _ BA); auto). unfold fK, CK, col. cbn [cols].
      rewrite (nth_map _ _ _ dK) by auto. reflexivity.
    - apply vget_out. rewrite map_length, (bj_rho _ _ _ BA). auto. }
  assert (VIpi : forall j s, (s < m)%nat -> VI j (nth s piB 0%nat) = fC ims j s).
  { intros j s Hs. unfold VI. destruct (bj_2 _ _ _ BB s Hs) as [X Y]. rewrite Y. apply Nat.ltb_lt in X. rewrite X. reflexivity. }
  assert (VKpi : forall j s, (s < n)%nat -> VK j (nth s piA 0%nat) = fK ker j s).
  { intros j s Hs. unfold VK. destruct (bj_2 _ _ _ BA s Hs) as [X Y]. rewrite Y. apply Nat.ltb_lt in X. rewrite X. reflexivity. }
  assert (Lliv : forall t r, (t < length lI)%nat -> (living (b_bars Im) r t = true <-> lo A' (nth t lI 0%nat) <= r < ic_death (nth (nth t lI 0%nat) ims dI))).
  { intros t r Ht. rewrite living_iff, P7, map_length, (nth_map _ _ _ 0%nat) by auto. rewrite Nib by auto. cbn [fst snd]. tauto. }
  assert (Lkliv : forall t r, (t < length lK)%nat -> (living (b_bars Ker) r t = true <-> kb ker (nth t lK 0%nat) <= r < kd ker (nth t lK 0%nat))).
  { intros t r Ht. rewrite living_iff, K7, map_length, (nth_map _ _ _ 0%nat) by auto. rewrite Nkb by auto. cbn [fst snd]. tauto. }
  rewrite P9, K9.
  assert (Hnull : forall r v, null_at p (b_bars B) r v <-> zon p (alive m (lo B') (hi B') r) (fun s => v (nth s piB 0%nat))).
  { intros r v. apply (null_sorted p B B' m piB rhoB); auto. }
  assert (HnullA : forall r v, null_at p (b_bars A) r v <-> zon p (alive n (lo A') (hi A') r) (fun s => v (nth s piA 0%nat))).
  { intros r v. apply (null_sorted p A A' n piA rhoA); auto. }
  assert (Hker : forall r v, ker_at p (b_bars A) (b_bars B) F r v <-> kerF p A' B' F2 r (fun t => v (nth t piA 0%nat))).
  { intros r v. apply (ker_sorted A' B' F2 piA rhoA piB rhoB); auto. }
  assert (Him : forall r v, im_at p (b_bars A) (b_bars B) F r v <-> imF p A' B' F2 r (fun t => v (nth t piB 0%nat))).
  { intros r v. apply (im_sorted A' B' F2 piA rhoA piB rhoB); auto. }
  assert (HzonI : forall r j, (zon p (alive m (lo B') (hi B') r) (fun s => VI j (nth s piB 0%nat)) <-> zon p (alive m (lo B') (hi B') r) (fC ims j))).
  { intros r j. split; apply zon_cong; intros s Hs; apply alive_iff in Hs; rewrite VIpi by tauto; reflexivity. }
  assert (HVmem : forall j r, (j < n)%nat -> lo A' j <= r -> im_at p (b_bars A) (b_bars B) F r (VI j)).
  { intros j r Hj Hr. apply Him. destruct (re_imem _ _ _ _ _ _ R j r) as (x & Hx); [congruence|auto|]. exists x. intros s Hs.
    rewrite <- (Hx s Hs). apply alive_iff in Hs. rewrite VIpi; [reflexivity|]. rewrite R2 in Hs. tauto. }
  assert (Bcong : forall bars r u v, (forall i, cong p (u i) (v i)) -> null_at p bars r u -> null_at p bars r v).
  { intros bars r u v Huv Hu i Hi. apply mod_cong; auto. rewrite <- Huv. apply mod_cong; auto. }
  assert (Icong : forall r u v, (forall i, cong p (u i) (v i)) -> im_at p (b_bars A) (b_bars B) F r u -> im_at p (b_bars A) (b_bars B) F r v).
  { intros r u v Huv (x & Hx). exists x. apply (Bcong _ _ _ _) with (2 := Hx). intros i. cbn beta. rewrite Huv. reflexivity. }
  assert (Hrec := fun k Hk => re_kbar _ _ _ _ _ _ R k Hk).
  assert (lcVI : forall c s, (s < m)%nat -> lc n c VI (nth s piB 0%nat) = lc n c (fC ims) s).
  { intros c s Hs. unfold lc. apply Zsum_ext. intros k Hk. rewrite VIpi; auto. }
  assert (lcVK : forall N c s, (s < n)%nat -> lc N c VK (nth s piA 0%nat) = lc N c (fK ker) s).
  { intros N c s Hs. unfold lc. apply Zsum_ext. intros k Hk. rewrite VKpi; auto. }
  pose proof (re_iindep _ _ _ _ _ _ R) as Rind. pose proof (re_ispan _ _ _ _ _ _ R) as Rspan.
  pose proof (re_ilive _ _ _ _ _ _ R) as Rlive. pose proof (re_kindep _ _ _ _ _ _ R) as Rkind.
  pose proof (re_kspan _ _ _ _ _ _ R) as Rkspan. pose proof (re_kzero _ _ _ _ _ _ R) as Rkz.
  rewrite C2, R2 in Rind, Rspan, Rlive. rewrite C2 in Rkind, Rkspan, Rkz.
  assert (ImB : forall r (al : nat -> Prop), (forall t, {al t} + {~ al t}) ->
    (forall t, (t < length lI)%nat -> (al t <-> lo A' (nth t lI 0%nat) <= r /\ ~ zon p (alive m (lo B') (hi B') r) (fC ims (nth t lI 0%nat)))) ->
    quotient_basis p (im_at p (b_bars A) (b_bars B) F r) (null_at p (b_bars B) r) (length lI) (column (b_coords Im)) al).
  { intros r al Hdec Hal.
    apply (family_transfer p _ _ n VI (fun j => lo A' j <= r /\ ~ zon p (alive m (lo B') (hi B') r) (fC ims j)) lI); auto.
    - intros k Hk. apply SIin in Hk. lia.
    - intros k Hk [H1 H2]. apply SIin. rewrite Lib, Nib by auto. split; auto. cbn [fst snd].
      specialize (Rlive k r Hk H1 H2). lia.
    - intros k Hk [H1 H2]. apply HVmem; auto.
    - apply Icong.
    - apply Bcong.
    - intros v Hv. apply Him in Hv. destruct (Rspan r _ Hv) as (c & Hc & Hcx). exists c. split; auto.
      apply Hnull. apply zon_intro. intros s Hs. specialize (Hcx s Hs). apply alive_iff in Hs. rewrite lcVI by tauto. rewrite Hcx. apply cong_eq. ring.
    - intros c Hc Hz. apply (Rind r c).
      + intros j Hj Hn. destruct (Hc j Hj Hn). split; auto. apply Z.leb_le. auto.
      + apply Hnull in Hz. apply (zon_cong p _ _) with (2 := Hz). intros s Hs. apply alive_iff in Hs. rewrite lcVI by tauto. reflexivity. }
  refine (conj _ (conj _ (conj _ (conj _ (conj _ (conj _ (conj _ (conj _ (conj _ (conj _ (conj _ (conj _ (conj _ (conj _ _)))))))))))))).
  - exact OI.
  - exact OK.
  - cbn [nrows take_cols PM take_rows]. rewrite (bj_rho _ _ _ BA). auto.
  - unfold ncols, take_cols. cbn [cols]. rewrite map_length. auto.
  - intros r.
    apply (family_transfer p _ _ (length ker) VK (fun k => kb ker k <= r < kd ker k) lK); auto.
    + intros t. destruct (living (b_bars Ker) r t); [left|right]; auto.
    + intros k Hk. apply SKin in Hk. lia.
    + intros k Hk _. apply SKin. split; [lia|]. rewrite (Nkb k Hk). cbn [fst snd]. apply Hrec. auto.
    + intros k Hk [H1 H2]. apply Hker. pose proof (re_kmem _ _ _ _ _ _ R k r Hk H1) as H. unfold kerF in *.
      apply (zon_cong p _ _) with (2 := H). intros s Hs. apply lc_cong; [|reflexivity]. intros t Ht. unfold on.
      rewrite VKpi by congruence. reflexivity.
    + intros u v Huv Hu. unfold ker_at in *. apply (Bcong _ _ _ _) with (2 := Hu). intros i. unfold mapply. apply Zsum_cong. intros j Hj.
      unfold restr. destruct (living (b_bars A) r j); [rewrite Huv|]; reflexivity.
    + apply Bcong.
    + intros v Hv. apply Hker in Hv. destruct (Rkspan r _ Hv) as (c & Hc & Hcx). exists c. split.
      * intros k Hk Hn. specialize (Hc k Hk Hn). apply andb_true_iff in Hc. rewrite Z.leb_le, Z.ltb_lt in Hc. lia.
      * apply HnullA. apply zon_intro. intros s Hs. specialize (Hcx s Hs). apply alive_iff in Hs. rewrite lcVK by tauto. rewrite Hcx. apply cong_eq. ring.
    + intros c Hc Hz. apply (Rkind r c).
      * intros k Hk Hn. destruct (Hc k Hk Hn). split; [apply Z.leb_le; auto|]. rewrite (Rkz k r Hk) by auto. lia.
      * apply HnullA in Hz. apply (zon_cong p _ _) with (2 := Hz). intros s Hs. apply alive_iff in Hs. rewrite lcVK by tauto. reflexivity.
  - intros r. apply ImB.
    + intros t. destruct (living (b_bars Im) r t); [|right; intros [X _]; discriminate].
      destruct (nullb_dec p (b_bars B) r (column (b_coords Im) t)); [right; tauto|left; auto].
    + intros t Ht. rewrite Lliv by auto.
      assert (X : null_at p (b_bars B) r (column (b_coords Im) t) <-> zon p (alive m (lo B') (hi B') r) (fC ims (nth t lI 0%nat))).
      { rewrite Hnull, <- HzonI. split; apply zon_cong; intros s _; rewrite CIm by auto; reflexivity. }
      rewrite X. split; [tauto|]. intros [H1 H2]. pose proof (Rlive (nth t lI 0%nat) r (HlI t Ht) H1 H2). tauto.
  - intros k r Hk Hr. apply (Icong r (VI (nth k lI 0%nat))); [intros i; rewrite CIm by auto; reflexivity|]. apply HVmem; auto.
    rewrite P7, (nth_map _ _ _ 0%nat), Nib in Hr by auto. exact Hr.
  - intros Hcalm.
    assert (Hc' : forall j, (j < n)%nat -> calm F2 (lo A') (hi A') j).
    { intros j Hj i Hi. rewrite C2 in Hi. unfold lo, hi. rewrite (sa_nth _ _ _ _ _ SA j Hj), (sa_nth _ _ _ _ _ SA i Hi).
      destruct (bj_2 _ _ _ BA j Hj) as [Xj _]. destruct (bj_2 _ _ _ BA i Hi) as [Xi _].
      apply Hcalm; apply nth_In; lia. }
    split.
    + intros r. apply ImB.
      * intros t. destruct (living (b_bars Im) r t); [left|right]; auto.
      * intros t Ht. rewrite Lliv by auto. split; intros [H1 H2]; split; auto.
        intros Hz. pose proof (re_iexact _ _ _ _ _ _ R (nth t lI 0%nat) r (Hc' _ (HlI t Ht))) as X. rewrite C2, R2 in X. specialize (X (HlI t Ht) H1 Hz). lia.
    + intros k i Hk Hi. apply cong_mod_iff; auto.
      destruct (bj_1 _ _ _ BB i Hi) as [Xi Yi]. rewrite CIm by auto. rewrite <- Yi at 1 2. rewrite VIpi by auto.
      rewrite (mapply_sorted A' F2 piA rhoA piB) by auto.
      pose proof (re_ipre _ _ _ _ _ _ R (nth k lI 0%nat) (Hc' _ (HlI k Hk)) ltac:(rewrite C2; auto) (nth i rhoB 0%nat)) as X. rewrite C2 in X. rewrite X.
      apply lc_cong; [|reflexivity]. intros t Ht. apply cong_eq. unfold column, get. 
      replace (col (take_cols PM oI) k) with (col (take_rows CT rhoA) (nth k lI 0%nat)).
      * rewrite col_take_rows by (unfold ncols, CT; cbn [cols]; rewrite map_length; rewrite Lims; auto).
        destruct (bj_2 _ _ _ BA t Ht) as [Xt Yt].
        rewrite (vget_nth_map _ 0%nat) by (rewrite (bj_rho _ _ _ BA); auto). rewrite Yt. unfold fT, CT, col. cbn [cols].
        rewrite (nth_map _ _ _ dI) by (rewrite Lims; auto). reflexivity.
      * unfold col, take_cols. cbn [cols]. unfold col, PM. cbn [cols]. unfold vec in *. rewrite Q2. rewrite (nth_map _ _ _ 0%nat) by auto. reflexivity.
  - intros k i. destruct (lt_dec k (length lI)) as [Hk|Hk].
    + rewrite CIm by auto. unfold VI. destruct (Nat.ltb i m); [|lia].
      destruct (re_iwf _ _ _ _ _ _ R (nth k lI 0%nat)) as (_ & _ & X & _); [rewrite C2; auto|]. apply X.
    + unfold column. rewrite P8. unfold get, col, take_cols. cbn [cols]. rewrite nth_overflow by (rewrite map_length; lia). rewrite vget_out; cbn; lia.
  - intros k i. destruct (lt_dec k (length lK)) as [Hk|Hk].
    + rewrite CKer by auto. unfold VK. destruct (Nat.ltb i n); [|lia].
      destruct (re_kwf _ _ _ _ _ _ R (nth k lK 0%nat)) as (_ & X); [auto|]. apply X.
    + unfold column. rewrite K8. unfold get, col, take_cols. cbn [cols]. rewrite nth_overflow by (rewrite map_length; lia). rewrite vget_out; cbn; lia.
  - intros k i Hk Hi Hn. destruct (bj_1 _ _ _ BB i Hi) as [Xi Yi].
    rewrite P7, (nth_map _ _ _ 0%nat), Nib by auto. cbn [fst].
    rewrite CIm in Hn by auto. rewrite <- Yi in Hn. rewrite VIpi in Hn by auto.
    pose proof (re_csupp _ _ _ _ _ _ R (nth k lI 0%nat) (nth i rhoB 0%nat)) as X. rewrite C2, R2 in X.
    specialize (X (HlI k Hk) Xi). unfold lo at 1 in X. rewrite (sa_nth _ _ _ _ _ SB _ Xi), Yi in X. apply X.
    intros E. apply Hn. apply mod_cong; auto.
  - intros i k Hi Hk Hn. rewrite K7, map_length in Hk. rewrite <- HAd, Hcols in Hi. destruct (bj_1 _ _ _ BA i Hi) as [Xi Yi].
    rewrite K7, (nth_map _ _ _ 0%nat), Nkb by auto. cbn [fst snd].
    change (get (b_coords Ker) i k) with (column (b_coords Ker) k i) in Hn.
    rewrite CKer in Hn by auto. rewrite <- Yi in Hn. rewrite VKpi in Hn by auto.
    assert (Hn' : ~ cong p (fK ker (nth k lK 0%nat) (nth i rhoA 0%nat)) 0) by (intros E; apply Hn; apply mod_cong; auto).
    destruct (re_ksupp _ _ _ _ _ _ R _ _ (HlK k Hk) Hn') as [_ X]. unfold lo in X. rewrite (sa_nth _ _ _ _ _ SA _ Xi), Yi in X.
    split; auto. destruct (Z_le_gt_dec (snd (nth i (b_bars A) (0, 0))) (kd ker (nth k lK 0%nat))) as [|Hgt]; auto. exfalso. apply Hn'.
    pose proof (Hrec _ (HlK k Hk)) as X2.
    pose proof (proj2 (Rkz (nth k lK 0%nat) (kd ker (nth k lK 0%nat)) (HlK k Hk) ltac:(lia)) ltac:(lia)) as Hz.
    apply (zon_at p _ _ _ Hz). apply alive_iff. split; auto. unfold lo, hi. rewrite (sa_nth _ _ _ _ _ SA _ Xi), Yi. lia.
  - intros x Hx. rewrite K7 in Hx. apply in_map_iff in Hx. destruct Hx as (k & <- & Hk). apply SKin in Hk. destruct Hk as [Hk _]. rewrite Lkb in Hk.
    rewrite Nkb by auto. cbn [fst].
    pose proof (re_kin _ _ _ _ _ _ R k Hk) as X. unfold radii in X. rewrite zunique_In, in_app_iff, !changes_In in X.
    destruct X as [(i & Hi & E)|(i & Hi & E)].
    + exists (nth (nth i piA 0%nat) (b_bars A) (0, 0)). rewrite <- A'd, A'dim in Hi. destruct (bj_2 _ _ _ BA i Hi) as [Xi _].
      rewrite (sa_nth _ _ _ _ _ SA i Hi) in E. split; [apply in_or_app; left; apply nth_In; lia|auto].
    + exists (nth (nth i piB 0%nat) (b_bars B) (0, 0)). rewrite <- B'd, B'dim in Hi. destruct (bj_2 _ _ _ BB i Hi) as [Xi _].
      rewrite (sa_nth _ _ _ _ _ SB i Hi) in E. split; [apply in_or_app; right; apply nth_In; lia|auto].
  - intros x Hx. rewrite P7 in Hx. apply in_map_iff in Hx. destruct Hx as (k & <- & Hk). apply SIin in Hk. destruct Hk as [Hk _]. rewrite Lib in Hk.
    rewrite Nib by auto. cbn [fst]. destruct (bj_2 _ _ _ BA k Hk) as [Xk _]. exists (nth (nth k piA 0%nat) (b_bars A) (0, 0)).
    split; [apply nth_In; lia|]. unfold lo. rewrite (sa_nth _ _ _ _ _ SA k Hk). reflexivity.
  - intros Hall. destruct (Nat.eq_dec (length lI) 0) as [|Hne]; auto. exfalso.
    assert (HN : nullF p A' B' F2).
    { intros j Hj. rewrite C2 in Hj. set (v := fun i => fF F2 j (nth i rhoB 0%nat)).
      assert (Ev : forall s, (s < m)%nat -> v (nth s piB 0%nat) = fF F2 j s).
      { intros s Hs. unfold v. destruct (bj_2 _ _ _ BB s Hs) as [_ Y]. rewrite Y. reflexivity. }
      assert (Hv : im_at p (b_bars A) (b_bars B) F (lo A' j) v).
      { apply Him. exists (funit j). intros s Hs. apply alive_iff in Hs. rewrite R2 in Hs. rewrite Ev by tauto.
        rewrite <- (lc_unit (ncols F2) j (fF F2) s) by lia. apply lc_cong; [|reflexivity]. intros k Hk. unfold on, funit.
        destruct (Nat.eqb_spec k j) as [->|]; [|destruct (alive _ _ _ _ _); reflexivity].
        assert (X : alive (ncols F2) (lo A') (hi A') (lo A' j) j = true).
        { apply alive_iff. split; [lia|]. pose proof (A'n (nth j (b_bars A') (0, 0)) ltac:(apply nth_In; lia)). unfold lo, hi. lia. }
        rewrite X. reflexivity. }
      apply Hall, Hnull in Hv. rewrite R2. apply (zon_cong p _ _) with (2 := Hv). intros s Hs. apply alive_iff in Hs. rewrite Ev by tauto. reflexivity. }
    assert (Hin : In (nth 0 lI 0%nat) lI) by (apply nth_In; lia). apply SIin in Hin. destruct Hin as [H1 H2].
    rewrite Nib in H2 by lia. cbn [fst snd] in H2. rewrite RN in H2 by (auto; lia). lia.
Qed.
End Abs.
