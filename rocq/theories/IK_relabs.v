(** * [image_kernel] in the relative case: the returned basis *)
From Verif Require Import Base ListX SortX Lin Gauss_model Gauss_arith Gauss_col Gauss_bar Basis_model Basis_props PH_model IK_model IK_pivot IK_lin IK_phase IK_kphase IK_inv IK_loop IK_rel IK_unit IK_rloop IK_post IK_abs Spec_PH Spec_IK.
From Verif Require LC_props.
From Coq Require Import Znumtheory Sorting.Sorted Sorting.Permutation.
Local Open Scope Z_scope.

(** Coefficients which vanish modulo [p] can be replaced by zero. *)
Definition zap (p : Z) (c : nat -> Z) (j : nat) : Z := if cong_dec p (c j) 0 then 0 else c j.
Lemma zap_cong p c j : cong p (zap p c j) (c j).
Proof. unfold zap. destruct (cong_dec p (c j) 0) as [E|E]; [symmetry; auto|reflexivity]. Qed.
Lemma zap_nz p c j : zap p c j <> 0 -> ~ cong p (c j) 0.
Proof. unfold zap. destruct (cong_dec p (c j) 0); auto. Qed.

Lemma mapply_cong p M c c' i : (forall j, (j < ncols M)%nat -> cong p (c j) (c' j)) -> cong p (mapply M c i) (mapply M c' i).
Proof. intros H. unfold mapply. apply Zsum_cong. intros j Hj. rewrite (H j Hj). reflexivity. Qed.
Lemma mapply_ext M c c' i : (forall j, (j < ncols M)%nat -> c j = c' j) -> mapply M c i = mapply M c' i.
Proof. intros H. unfold mapply. apply Zsum_ext. intros j Hj. rewrite (H j Hj). reflexivity. Qed.
Lemma mapply_add M c c' i : mapply M (fun j => c j + c' j) i = mapply M c i + mapply M c' i.
Proof. unfold mapply. rewrite <- Zsum_add. apply Zsum_ext. intros; ring. Qed.
Lemma mapply_scale M a c i : mapply M (fun j => a * c j) i = a * mapply M c i.
Proof. unfold mapply. rewrite <- Zsum_scale. apply Zsum_ext. intros; ring. Qed.
Lemma mapply_lc M N c (V : nat -> nat -> Z) i : mapply M (lc N c V) i = lc N c (fun k => mapply M (V k)) i.
Proof.
  unfold mapply, lc. rewrite (Zsum_ext (ncols M) _ (fun j => Zsum N (fun k => get M i j * (c k * V k j)))) by (intros; rewrite Zsum_scale; reflexivity).
  rewrite Zsum_swap. apply Zsum_ext. intros k Hk. rewrite <- Zsum_scale. apply Zsum_ext. intros; ring.
Qed.
Lemma mapply_out M x i : wf_mat M -> (nrows M <= i)%nat -> mapply M x i = 0.
Proof.
  intros Hw Hi. unfold mapply. apply Zsum_0. intros j Hj. unfold get. rewrite vget_out; [ring|]. rewrite wf_col; auto.
Qed.

Lemma mask_filter_In {T} m (l : list T) x : In x (mask_filter m l) -> In x l.
Proof.
  revert l. induction m as [|b m IH]; intros l; [destruct l; cbn; tauto|]. destruct l as [|y l]; [destruct b; cbn; tauto|].
  destruct b; cbn; [intros [H|H]|intros H]; auto.
Qed.

(** Combinations whose first coefficients vanish. *)
Lemma lc_tail p n s c (V : nat -> fvec) i : (s <= n)%nat -> (forall j, (j < s)%nat -> cong p (c j) 0) ->
  cong p (lc n c V i) (lc (n - s) (fun t => c (s + t)%nat) (fun t => V (s + t)%nat) i).
Proof.
  intros Hs Hc. unfold lc. replace n with (s + (n - s))%nat at 1 by lia. rewrite Zsum_app.
  rewrite (Zsum_cong0 p s); [apply cong_eq; ring|]. intros j Hj. rewrite (Hc j Hj). apply cong_eq. ring.
Qed.

Section Rel.
Variables (rnd : Z -> Z) (p : Z) (A B : basis) (F : mat) (s : nat).
Notation n := (ncols F).
Notation m := (nrows F).
Notation bar_ b j := (nth j (b_bars b) (0, 0)).
Hypothesis Hp : prime p.
Hypothesis HA : bars_ok A.
Hypothesis HB : bars_ok B.
Hypothesis Hbrk : b_brk B = None.
Hypothesis Hrows : b_dim B = m.
Hypothesis Hcols : b_dim A = n.
Hypothesis Hwf : wf_mat F.
Hypothesis Hnn : forall i j, 0 <= get F i j.
Hypothesis Hs : (0 < s < n)%nat.
Hypothesis Huns : b_sorted A = false.
Hypothesis Hrnd : rnd_faithful rnd (skipn s (b_bars A)).
Hypothesis Hbirth : forall i j, (i < m)%nat -> (j < n)%nat -> get F i j mod p <> 0 -> fst (bar_ B i) <= fst (bar_ A j).
Hypothesis Hdeath : forall i j, (i < m)%nat -> (s <= j < n)%nat -> get F i j mod p <> 0 -> snd (bar_ B i) <= snd (bar_ A j).

(** Span at [r] of the columns from [lo] to [hi] born by [r]. *)
Definition cspan (l h : nat) (r : Z) (v : nat -> Z) : Prop :=
  exists c, (forall j, c j <> 0 -> (l <= j < h)%nat /\ fst (bar_ A j) <= r) /\ null_at p (b_bars B) r (fun i => v i - mapply F c i).

(** Coefficients on the columns from [s] on. *)
Definition spre (Pre : mat) (k j : nat) : Z := if Nat.ltb j s then 0 else column Pre k (j - s).

Theorem image_kernel_rel : exists Im Pre, image_kernel rnd A B F p s = Ok (Im, None, Pre) /\
  over Im B /\ nrows Pre = (n - s)%nat /\ ncols Pre = b_dim Im /\ wf_mat Pre /\
  (forall i j, 0 <= get (b_coords Im) i j) /\
  (forall r, quotient_basis p (cspan s n r) (cspan 0 s r) (b_dim Im) (fun k => mapply F (spre Pre k)) (fun k => living (b_bars Im) r k = true)) /\
  (forall k, (k < b_dim Im)%nat -> exists c, (forall j, c j <> 0 -> (j < s)%nat) /\
     (forall i, (i < m)%nat -> cong p (column (b_coords Im) k i) (mapply F (spre Pre k) i + mapply F c i)) /\
     ((exists j, (s <= j < n)%nat /\ snd (bar_ Im k) = snd (bar_ A j)) \/ forall j, c j = 0)) /\
  (forall x, In x (b_bars Im) -> (exists j, (s <= j < n)%nat /\ fst x = fst (bar_ A j)) /\
     ((exists y, In y (b_bars A) /\ (snd x = fst y \/ snd x = snd y)) \/ (exists y, In y (b_bars B) /\ (snd x = fst y \/ snd x = snd y)))) /\
  (forall k, (k < b_dim Im)%nat -> exists c, (forall t, c t <> 0 -> (t < b_dim Im)%nat /\ fst (bar_ Im t) <= fst (bar_ Im k) /\ snd (bar_ Im k) < snd (bar_ Im t)) /\
     cspan 0 s (snd (bar_ Im k)) (fun i => mapply F (spre Pre k) i - Zsum (b_dim Im) (fun t => c t * mapply F (spre Pre t) i))) /\
  (forall k i, (k < b_dim Im)%nat -> (i < m)%nat -> ~ cong p (mapply F (spre Pre k) i) 0 -> fst (bar_ B i) <= fst (bar_ Im k)) /\
  ((forall B' F1 oB A' F2 oA, order_B rnd B F = Ok (B', F1, oB) -> order_A rnd A F1 s = Ok (A', F2, oA) ->
      unit_tail p F2 s (lo A') (hi A') (lo B') (hi B')) ->
   forall k, (k < b_dim Im)%nat -> (forall i, (i < m)%nat -> cong p (column (b_coords Im) k i) (mapply F (spre Pre k) i)) /\
     cspan 0 s (snd (bar_ Im k)) (mapply F (spre Pre k))).
Proof.
  assert (p_pos : 0 < p) by (destruct Hp; lia).
  pose proof HA as (HAf & HAd & HAn). pose proof HB as (HBf & HBd & HBn).
  destruct (order_B_spec rnd B F HB Hbrk Hrows Hwf) as (B' & F1 & rhoB & piB & EB & SB & Hbrk' & R1 & C1 & W1 & G1).
  destruct (order_A_spec rnd A F1 s HA Huns ltac:(congruence) W1 ltac:(lia) Hrnd) as (A' & F2 & rA & pA & EA & BAr & SA & R2 & C2 & W2 & G2 & Hsrt).
  rewrite R1 in R2. rewrite C1 in C2, G2, Hsrt, SA, BAr.
  set (piA := shift_by s pA) in *. set (rhoA := shift_by s rA) in *.
  assert (G : forall i j, (i < m)%nat -> (j < n)%nat -> get F2 i j = get F (nth i piB 0%nat) (nth j piA 0%nat)).
  { intros i j Hi Hj. rewrite G2 by auto. apply G1; auto. apply (bj_2 _ _ _ (sa_bij _ _ _ _ _ SA)). auto. }
  pose proof (sa_bij _ _ _ _ _ SA) as BA. pose proof (sa_bij _ _ _ _ _ SB) as BB.
  pose proof (sa_ok _ _ _ _ _ SA) as (A'f & A'd & A'n). pose proof (sa_ok _ _ _ _ _ SB) as (B'f & B'd & B'n).
  pose proof (sa_dim _ _ _ _ _ SA) as A'dim. pose proof (sa_dim _ _ _ _ _ SB) as B'dim.
  (* the permutation of the columns respects the two blocks *)
  assert (Hshift : forall l, length l = (n - s)%nat -> (forall i, (i < n - s)%nat -> (nth i l 0 < n - s)%nat) ->
    (forall j, (j < s)%nat -> nth j (shift_by s l) 0%nat = j) /\
    (forall j, (s <= j < n)%nat -> nth j (shift_by s l) 0%nat = (nth (j - s) l 0 + s)%nat /\ (s <= nth j (shift_by s l) 0 < n)%nat)).
  { intros l Ll Hl. unfold shift_by. split.
    - intros j Hj. rewrite app_nth1 by (rewrite seq_length; auto). rewrite seq_nth; auto.
    - intros j Hj. rewrite app_nth2 by (rewrite seq_length; lia). rewrite seq_length. rewrite (nth_map _ _ _ 0%nat) by lia.
      split; auto. specialize (Hl (j - s)%nat ltac:(lia)). lia. }
  destruct (Hshift pA (bj_pi _ _ _ BAr)) as [pi1 pi2]; [intros i Hi; apply (bj_2 _ _ _ BAr); auto|].
  destruct (Hshift rA (bj_rho _ _ _ BAr)) as [rho1 rho2]; [intros i Hi; apply (bj_1 _ _ _ BAr); auto|].
  fold piA in pi1, pi2. fold rhoA in rho1, rho2.
  destruct (rel_loop_result p A' B' F2 s) as (ims & EL & EI & R & Rdead); auto; try congruence; try lia.
  { rewrite C2. intros i Hi. apply A'n. apply nth_In. lia. }
  { rewrite C2. exact Hsrt. }
  { rewrite C2, R2. intros j i Hj Hi Hn. unfold lo, hi. rewrite (sa_nth _ _ _ _ _ SA j Hj), (sa_nth _ _ _ _ _ SB i Hi).
    destruct (bj_2 _ _ _ BA j Hj) as [Xa _]. destruct (bj_2 _ _ _ BB i Hi) as [Xb _].
    apply Hbirth; try lia. intros E. apply Hn. unfold fF. fold (get F2 i j). rewrite G by auto. apply mod_cong; auto. }
  { rewrite C2, R2. intros j i Hj Hi Hn. unfold lo, hi. rewrite (sa_nth _ _ _ _ _ SA j) by lia. rewrite (sa_nth _ _ _ _ _ SB i Hi).
    destruct (pi2 j Hj) as [_ Xa]. destruct (bj_2 _ _ _ BB i Hi) as [Xb _].
    apply Hdeath; try lia. intros E. apply Hn. unfold fF. fold (get F2 i j). rewrite G by lia. apply mod_cong; auto. }
  { intros j i. unfold fF. fold (get F2 i j). destruct (lt_dec j n) as [Hj|Hj].
    - destruct (lt_dec i m) as [Hi|Hi]; [rewrite G by auto; apply Hnn|]. unfold get. rewrite vget_out; [lia|]. rewrite wf_col; auto; lia.
    - unfold get. rewrite vget_out; [lia|]. unfold col. rewrite nth_overflow; [cbn; lia|]. unfold ncols in C2 at 1. unfold vec in *. lia. }
  (* unfolding the function *)
  clear HAf HBf A'f B'f.
  unfold image_kernel. rewrite Hrows, Hcols, !Nat.eqb_refl. cbn [negb orb]. rewrite EB. cbn [bind]. rewrite EA. cbn [bind].
  rewrite A'dim. replace (map (fun j : nat => ICol (fst (nth j (b_bars A') (0, 0))) 0 (col F2 j) (vunit n j) (-2)) (seq 0 n)) with (ims0 A' F2)
    by (unfold ims0; rewrite C2; reflexivity).
  change (zunique (changes_list A' ++ changes_list B')) with (radii A' B'). rewrite EL. cbn [bind]. rewrite EI. cbn [bind].
  rewrite Hbrk'. destruct (Nat.ltb_spec 0 s) as [_|]; [|lia]. cbn [orb bind]. rewrite B'dim.
  assert (Lims : length ims = n) by (rewrite (rr_len _ _ _ _ _ _ R); auto).
  set (CI := Mat m (map ic_col ims)).
  rewrite (take_rows_err_bij CI m piB rhoB eq_refl BB). cbn [bind].
  set (ibars := skipn s (map (fun c => (ic_birth c, ic_death c)) ims)).
  set (CS := Mat (nrows (take_rows CI rhoB)) (skipn s (cols (take_rows CI rhoB)))).
  assert (LCI : ncols CI = n) by (unfold ncols, CI; cbn [cols]; rewrite map_length; auto).
  assert (Lib : length ibars = (n - s)%nat) by (unfold ibars; rewrite skipn_length, map_length; lia).
  assert (LCS : ncols CS = (n - s)%nat).
  { unfold ncols, CS. cbn [cols]. rewrite skipn_length. unfold take_rows. cbn [cols]. rewrite map_length. unfold ncols, vec in *. lia. }
  assert (colCS : forall t, (t < n - s)%nat -> col CS t = col (take_rows CI rhoB) (s + t)).
  { intros t Ht. unfold col, CS. cbn [cols]. apply nth_skipn. }
  destruct (post_spec rnd ibars B CS true) as (ib & Im & oI & lI & P1 & P2 & P3 & [SInd SIin] & P5 & P6 & P7 & P8 & P9 & P10 & P11 & P12 & P13 & P14).
  { lia. }
  { unfold CS. cbn [nrows take_rows]. rewrite (bj_rho _ _ _ BB). auto. }
  { unfold CS, wf_mat. cbn [nrows cols]. apply Forall_forall. intros c Hc. apply In_skipn in Hc.
    pose proof (wf_take_rows CI rhoB) as W. unfold wf_mat in W. rewrite Forall_forall in W. apply W; auto. }
  { intros _ E. rewrite E in Lib. cbn in Lib. lia. }
  assert (PF : unit -> b_flat Im = false /\ b_sorted Im = true) by auto. clear P10 P12.
  rewrite P1. cbn [bind].
  set (CT := Mat (n - s) (@map icol (list Z) (fun c => skipn s (ic_T c)) ims)).
  rewrite (take_rows_err_bij CT (n - s) pA rA eq_refl BAr). cbn [bind]. rewrite P2, P3. cbn [bind].
  set (PM := Mat (nrows (take_rows CT rA)) (mask_filter (well_defined ibars) (skipn s (cols (take_rows CT rA))))).
  destruct (P14 _ (skipn s (cols (take_rows CT rA))) []) as [Q1 Q2].
  { unfold take_rows, CT. cbn [cols]. rewrite skipn_length, !map_length. lia. }
  rewrite (take_cols_err_ok PM oI) by (intros j Hj; unfold ncols, PM; cbn [cols]; unfold vec in *; rewrite Q1; auto). cbn [bind].
  exists Im, (take_cols PM oI). split; [reflexivity|].
  assert (HlI : forall t, (t < length lI)%nat -> (nth t lI 0 < n - s)%nat).
  { intros t Ht. assert (In (nth t lI 0%nat) lI) by (apply nth_In; auto). apply SIin in H. lia. }
  assert (Nib : forall t, (t < n - s)%nat -> nth t ibars (0, 0) = (lo A' (s + t), ic_death (nth (s + t) ims dI))).
  { intros j Hj. unfold ibars. rewrite nth_skipn. rewrite (nth_map _ _ _ dI) by lia. f_equal. rewrite (rr_birth _ _ _ _ _ _ R) by lia. reflexivity. }
  (* columns of the coordinates and of the preimages *)
  assert (CIm : forall t, (t < length lI)%nat -> forall i, (i < m)%nat -> column (b_coords Im) t i = fC ims (s + nth t lI 0)%nat (nth i rhoB 0%nat)).
  { intros t Ht i Hi. pose proof (HlI t Ht) as X. unfold column. rewrite P8. unfold get. rewrite nth_take_cols by auto. rewrite colCS by auto.
    rewrite col_take_rows by (rewrite LCI; lia).
    rewrite (vget_nth_map _ 0%nat) by (rewrite (bj_rho _ _ _ BB); auto). unfold fC, CI, col. cbn [cols].
    rewrite (nth_map _ _ _ dI) by (rewrite Lims; lia). reflexivity. }
  assert (Lt : forall j, (j < n)%nat -> length (ic_T (nth j ims dI)) = n).
  { intros j Hj. destruct (rr_wf _ _ _ _ _ _ R j) as (_ & X & _); [lia|]. lia. }
  assert (CPre : forall t, (t < length lI)%nat -> forall j, (j < n - s)%nat -> column (take_cols PM oI) t j = fT ims (s + nth t lI 0)%nat (s + nth j rA 0)%nat).
  { intros t Ht j Hj. pose proof (HlI t Ht) as X. unfold column, get.
    replace (col (take_cols PM oI) t) with (col (take_rows CT rA) (s + nth t lI 0)%nat).
    - rewrite col_take_rows by (unfold ncols, CT; cbn [cols]; rewrite map_length; lia).
      rewrite (vget_nth_map _ 0%nat) by (rewrite (bj_rho _ _ _ BAr); auto). unfold fT, CT, col. cbn [cols].
      rewrite (nth_map _ _ _ dI) by lia. unfold vget. rewrite nth_skipn. reflexivity.
    - unfold col, take_cols. cbn [cols]. unfold col, PM. cbn [cols]. unfold vec in *. rewrite Q2. rewrite (nth_map _ _ _ 0%nat) by auto.
      rewrite nth_skipn. reflexivity. }
  (* coefficients in the order of the input *)
  set (back := fun (x : nat -> Z) j => if Nat.ltb j n then x (nth j rhoA 0%nat) else 0).
  assert (Hback : forall x i, (i < m)%nat -> mapply F (back x) i = lc n x (fF F2) (nth i rhoB 0%nat)).
  { intros x i Hi. destruct (bj_1 _ _ _ BB i Hi) as [Xi Yi]. rewrite <- Yi at 1. unfold mapply, lc.
    rewrite <- (bij_sum n piA rhoA _ BA). apply Zsum_ext. intros t Ht. unfold back. destruct (bj_2 _ _ _ BA t Ht) as [X ->]. destruct (Nat.ltb_spec (nth t piA 0%nat) n); [|lia].
    unfold fF. fold (get F2 (nth i rhoB 0%nat) t). rewrite G by auto. ring. }
  assert (Hforth : forall x i, (i < m)%nat -> mapply F x (nth i piB 0%nat) = lc n (fun t => x (nth t piA 0%nat)) (fF F2) i).
  { intros x i Hi. unfold mapply, lc. rewrite <- (bij_sum n piA rhoA _ BA). apply Zsum_ext. intros t Ht.
    unfold fF. fold (get F2 i t). rewrite G by auto. ring. }
  assert (Hnull : forall r v, null_at p (b_bars B) r v <-> zon p (alive m (lo B') (hi B') r) (fun s => v (nth s piB 0%nat))).
  { intros r v. apply (null_sorted p B B' m piB rhoB); auto. }
  assert (Hspan : forall l h r v, (l = 0 /\ h = s \/ l = s /\ h = n)%nat -> (cspan l h r v <->
    exists d, (forall i, (i < n)%nat -> ~ cong p (d i) 0 -> (l <= i < h)%nat /\ lo A' i <= r) /\
      forall i, alive m (lo B') (hi B') r i = true -> cong p (v (nth i piB 0%nat)) (lc n d (fF F2) i))).
  { intros l h r v Hlh. split.
    - intros (c & Hc & Hv). exists (fun t => c (nth t piA 0%nat)). split.
      + intros t Ht Hn. destruct (Hc (nth t piA 0%nat)) as [X1 X2]; [intros E; apply Hn; rewrite E; reflexivity|].
        unfold lo. rewrite (sa_nth _ _ _ _ _ SA t Ht). split; auto.
        destruct (lt_dec t s) as [Hts|Hts]; [rewrite pi1 in X1 by auto; lia|]. destruct (pi2 t ltac:(lia)). lia.
      + apply Hnull in Hv. intros i Hi. apply (zon_at p _ _ i) in Hv; auto. cbn beta in Hv. apply alive_iff in Hi. rewrite Hforth in Hv by tauto.
        destruct Hv as [q Hq]. exists q. lia.
    - intros (d & Hd & Hv). exists (back (zap p d)). split.
      + intros j Hj. unfold back in Hj. destruct (Nat.ltb_spec j n) as [Hjn|Hjn]; [|lia]. apply zap_nz in Hj.
        destruct (bj_1 _ _ _ BA j Hjn) as [X E]. destruct (Hd _ X Hj) as [Y1 Y2].
        unfold lo in Y2. rewrite (sa_nth _ _ _ _ _ SA _ X) in Y2. rewrite E in Y2. split; auto.
        destruct (lt_dec j s) as [Hjs|Hjs]; [rewrite rho1 in Y1 by auto; lia|]. destruct (rho2 j ltac:(lia)). lia.
      + apply Hnull. apply zon_intro. intros i Hi. cbn beta. specialize (Hv i Hi). apply alive_iff in Hi. rewrite Hforth by tauto.
        rewrite Hv. rewrite (lc_cong p n (fun t => back (zap p d) (nth t piA 0%nat)) d (fF F2) (fF F2) i); [apply cong_eq; ring| |reflexivity].
        intros t Ht. unfold back. destruct (bj_2 _ _ _ BA t Ht) as [X ->]. destruct (Nat.ltb_spec (nth t piA 0%nat) n); [|lia]. apply zap_cong. }
  (* the family, in the order of the input *)
  set (V := fun t => mapply F (back (cut s (fT ims (s + t)%nat)))).
  assert (Vpi : forall t i, (i < m)%nat -> V t (nth i piB 0%nat) = mv F2 s ims (s + t) i).
  { intros t i Hi. destruct (bj_2 _ _ _ BB i Hi) as [Xi Yi]. unfold V. rewrite Hback by auto. rewrite Yi. unfold mv. rewrite C2. reflexivity. }
  assert (Hg : forall k, (k < length lI)%nat -> forall i, mapply F (spre (take_cols PM oI) k) i = V (nth k lI 0%nat) i).
  { intros k Hk i. apply mapply_ext. intros j Hj. unfold spre, back. destruct (Nat.ltb_spec j n); [|lia]. unfold cut.
    destruct (Nat.ltb_spec j s) as [Hjs|Hjs].
    - rewrite rho1 by auto. destruct (Nat.ltb_spec j s); [reflexivity|lia].
    - destruct (rho2 j ltac:(lia)) as [E1 E2]. destruct (Nat.ltb_spec (nth j rhoA 0%nat) s); [lia|]. rewrite CPre by (auto; lia).
      rewrite E1. f_equal. lia. }
  assert (Ccong : forall l h r u v, (forall i, cong p (u i) (v i)) -> cspan l h r u -> cspan l h r v).
  { intros l h r u v Huv (c & Hc & Hv). exists c. split; auto. intros i Hi. apply mod_cong; auto. rewrite <- Huv. apply mod_cong; auto. }
  assert (HNB : forall r v, cspan 0 s r v <-> NB p F2 s (lo A') (lo B') (hi B') r (fun i => v (nth i piB 0%nat))).
  { intros r v. rewrite (Hspan 0%nat s) by (left; auto). unfold NB. rewrite C2, R2. split; intros (d & Hd & Hv); exists d; split; auto.
    - intros i Hi Hn. destruct (Hd i Hi Hn). split; [lia|auto].
    - intros i Hi Hn. destruct (Hd i Hi Hn). split; [lia|auto]. }
  assert (lcV : forall c i, (i < m)%nat -> lc (n - s) c V (nth i piB 0%nat) = lc (n - s) c (fun t => mv F2 s ims (s + t)%nat) i).
  { intros c i Hi. unfold lc. apply Zsum_ext. intros t Ht. rewrite Vpi by auto. reflexivity. }
  assert (NBc := NB_on p F2 s (lo A') (lo B') (hi B')).
  assert (NBz : forall r u, (forall i, alive m (lo B') (hi B') r i = true -> cong p (u i) 0) -> NB p F2 s (lo A') (lo B') (hi B') r u).
  { intros r u Hu. exists (fun _ => 0). split; [intros i _ Hn; elim Hn; reflexivity|]. rewrite R2. intros i Hi. rewrite (Hu i Hi). symmetry.
    apply lc_cong0. intros; apply cong_eq; ring. }
  assert (NBlc : forall r N c (W : nat -> fvec), (forall k, (k < N)%nat -> NB p F2 s (lo A') (lo B') (hi B') r (W k)) -> NB p F2 s (lo A') (lo B') (hi B') r (lc N c W)).
  { intros r N c W HW.
    destruct (fin_choose (fun _ : nat => 0) N (fun k d => (forall i, (i < n)%nat -> ~ cong p (d i) 0 -> (i < s)%nat /\ lo A' i <= r) /\
      forall i, alive m (lo B') (hi B') r i = true -> cong p (W k i) (lc n d (fF F2) i))) as (D & HD).
    { intros k Hk. destruct (HW k Hk) as (d & Hd). rewrite C2, R2 in Hd. exists d. exact Hd. }
    exists (fun i => lc N c D i). rewrite C2, R2. split.
    - intros i Hi Hn. destruct (lt_dec i s) as [His|His]; [destruct (Z_le_gt_dec (lo A' i) r); auto|]; exfalso; apply Hn; apply lc_cong0; intros k Hk;
        destruct (cong_dec p (D k i) 0) as [E|E]; [rewrite E; apply cong_eq; ring| |rewrite E; apply cong_eq; ring|];
        destruct (proj1 (HD k Hk) i Hi E); lia.
    - intros i Hi. change (lc n (fun i0 => lc N c D i0) (fF F2) i) with (lc n (lc N c D) (fF F2) i). rewrite lc_lc.
      apply lc_cong; [reflexivity|]. intros k Hk. apply (HD k Hk). auto. }
  pose proof (rr_q _ _ _ _ _ _ R) as Rq. rewrite C2 in Rq.
  split; [|split; [|split; [|split; [|split; [|split; [|split; [|split; [|split; [|split]]]]]]]]].
  - destruct (PF tt). split; [|rewrite P8; split; auto; split; auto; split; auto; split; [|split]].
    + split; auto. rewrite P9, P7, map_length. split; auto. intros x Hx. apply in_map_iff in Hx. destruct Hx as (k & <- & Hk). apply SIin; auto.
    + unfold CS. cbn [nrows take_cols take_rows]. rewrite (bj_rho _ _ _ BB). auto.
    + unfold ncols, take_cols. cbn [cols]. rewrite map_length. auto.
    + apply take_cols_shape.
      * unfold CS, wf_mat. cbn [nrows cols]. apply Forall_forall. intros c Hc. apply In_skipn in Hc.
        pose proof (wf_take_rows CI rhoB) as W. unfold wf_mat in W. rewrite Forall_forall in W. apply W; auto.
      * intros j Hj. apply SIin in Hj. lia.
  - cbn [nrows take_cols PM take_rows]. apply (bj_rho _ _ _ BAr).
  - unfold ncols, take_cols. cbn [cols]. rewrite map_length. lia.
  - apply take_cols_shape.
    + unfold PM, wf_mat. cbn [nrows cols]. apply Forall_forall. intros c Hc. apply mask_filter_In in Hc. apply In_skipn in Hc.
      pose proof (wf_take_rows CT rA) as W. unfold wf_mat in W. rewrite Forall_forall in W. apply W; auto.
    + intros j Hj. unfold ncols, PM. cbn [cols]. unfold vec in *. rewrite Q1. auto.
  - intros i k. destruct (lt_dec k (length lI)) as [Hk|Hk].
    + destruct (lt_dec i m) as [Hi|Hi].
      * fold (column (b_coords Im) k i). rewrite CIm by auto. destruct (rr_wf _ _ _ _ _ _ R (s + nth k lI 0)%nat) as (_ & _ & X & _);
          [specialize (HlI k Hk); lia|]. apply X.
      * rewrite P8. unfold get. rewrite nth_take_cols by auto. rewrite colCS by auto. rewrite col_take_rows by (rewrite LCI; specialize (HlI k Hk); lia).
        rewrite vget_out; [lia|]. rewrite map_length, (bj_rho _ _ _ BB). lia.
    + rewrite P8. unfold get, col, take_cols. cbn [cols]. rewrite nth_overflow by (rewrite map_length; lia). rewrite vget_out; cbn; lia.
  - intros r. destruct (Rq r) as [Rind Rgen].
    rewrite P9. apply (family_transfer p _ _ (n - s)%nat V (fun t => okf A' s ims r (s + t)%nat = true) lI); auto.
    + intros t. destruct (living (b_bars Im) r t); [left|right]; auto.
    + intros k Hk. apply SIin in Hk. lia.
    + intros k Hk Hok. apply SIin. rewrite Lib, Nib by auto. split; auto. cbn [fst snd]. unfold okf in Hok.
      rewrite !andb_true_iff, Z.leb_le, Z.ltb_lt in Hok. lia.
    + intros t Ht Hok. apply Hspan; [right; auto|]. exists (cut s (fT ims (s + t)%nat)). split.
      * intros i Hi Hn. apply cut_nz in Hn. destruct Hn as [H1 H2]. split; [lia|].
        apply (rr_supp _ _ _ _ _ _ R) in H2; [|lia]. unfold okf in Hok. rewrite !andb_true_iff, Z.leb_le in Hok. unfold lo.
        pose proof (Hsrt i (s + t)%nat ltac:(lia) ltac:(lia)). unfold lo in Hok. lia.
      * intros i Hi. apply alive_iff in Hi. rewrite Vpi by tauto. unfold mv. rewrite C2. reflexivity.
    + apply Ccong.
    + apply Ccong.
    + intros v Hv. apply Hspan in Hv; [|right; auto]. destruct Hv as (d & Hd & Hv).
      destruct (fin_choose (fun _ : nat => 0) n (fun i c => ~ cong p (d i) 0 -> (forall j, (j < n)%nat -> ~ cong p (c j) 0 -> okf A' s ims r j = true) /\
        NB p F2 s (lo A') (lo B') (hi B') r (fun q => fF F2 i q - lc n c (mv F2 s ims) q))) as (c & Hc).
      { intros i Hi. destruct (cong_dec p (d i) 0) as [E|E]; [exists (fun _ => 0); tauto|]. destruct (Hd i Hi E) as [X1 X2].
        destruct (Rgen i X1 X2) as (c & H1 & H2). exists c. intros _. split; auto. intros j Hj Hn. specialize (H1 j Hj Hn). apply andb_true_iff in H1. tauto. }
      set (d' := zap p d). set (e := lc n d' c).
      assert (Hd' : forall i, (i < n)%nat -> d' i = 0 \/ ~ cong p (d i) 0).
      { intros i Hi. unfold d', zap. destruct (cong_dec p (d i) 0); auto. }
      assert (Hok : forall j, (j < n)%nat -> ~ cong p (e j) 0 -> okf A' s ims r j = true).
      { intros j Hj Hn. destruct (okf A' s ims r j) eqn:E; auto. exfalso. apply Hn. apply lc_cong0. intros i Hi.
        destruct (Hd' i Hi) as [->|X]; [apply cong_eq; ring|]. destruct (cong_dec p (c i j) 0) as [E'|E']; [rewrite E'; apply cong_eq; ring|].
        apply (proj1 (Hc i Hi X) j Hj) in E'. congruence. }
      exists (fun t => e (s + t)%nat). split; [intros t Ht; apply Hok; lia|].
      apply HNB. apply (NBc r (fun q => lc n d' (fun i q => if cong_dec p (d i) 0 then 0 else fF F2 i q - lc n (c i) (mv F2 s ims) q) q)).
      * rewrite R2. intros q Hq. rewrite (Hv q Hq). apply alive_iff in Hq. rewrite lcV by tauto.
        rewrite <- (lc_tail p n s e (mv F2 s ims) q); [|lia|].
        2:{ intros j Hj. destruct (cong_dec p (e j) 0) as [E|E]; auto. apply Hok in E; [|lia].
          unfold okf in E. rewrite !andb_true_iff, Nat.leb_le in E. exfalso; lia. }
        unfold e. rewrite lc_lc. match goal with |- cong _ (lc n d' ?W q) (lc n d ?X q - lc n d' ?Y q) =>
          change (cong p (Zsum n (fun k => d' k * W k q)) (Zsum n (fun k => d k * X k q) - Zsum n (fun k => d' k * Y k q))) end.
        rewrite <- Zsum_sub. apply Zsum_cong. intros i Hi. unfold d', zap. destruct (cong_dec p (d i) 0) as [E|E].
        -- rewrite E. apply cong_eq. ring.
        -- apply cong_eq. ring.
      * apply NBlc. intros i Hi. destruct (cong_dec p (d i) 0) as [E|E]; [apply NBz; reflexivity|]. apply Hc; auto.
    + intros c Hc Hz. apply HNB in Hz.
      assert (X : forall j, (j < n)%nat -> cong p ((fun j => if Nat.ltb j s then 0 else c (j - s)%nat) j) 0).
      { apply Rind.
        - intros j Hj Hn. destruct (Nat.ltb_spec j s) as [Hjs|Hjs]; [elim Hn; reflexivity|]. replace j with (s + (j - s))%nat by lia. apply Hc; auto. lia.
        - apply (NBc r) with (2 := Hz). rewrite R2. intros i Hi. apply alive_iff in Hi. rewrite lcV by tauto. symmetry.
          rewrite (lc_tail p n s); [|lia|intros j Hj; destruct (Nat.ltb_spec j s); [reflexivity|lia]].
          apply lc_cong; [|reflexivity]. intros t Ht. destruct (Nat.ltb_spec (s + t) s); [lia|]. replace (s + t - s)%nat with t by lia. reflexivity. }
      intros t Ht. specialize (X (s + t)%nat ltac:(lia)). cbn beta in X. destruct (Nat.ltb_spec (s + t) s); [lia|].
      replace (s + t - s)%nat with t in X by lia. auto.
    + intros t Ht. rewrite P7. unfold living. rewrite map_length. rewrite (nth_map _ _ _ 0%nat) by auto. rewrite Nib by auto. unfold okf. cbn [fst snd].
      destruct (Nat.ltb_spec t (length lI)); [|lia]. destruct (Nat.leb_spec s (s + nth t lI 0%nat)); [|lia]. reflexivity.
  - intros k Hk. rewrite P9 in Hk. pose proof (HlI k Hk) as Xk. set (j := (s + nth k lI 0)%nat) in *.
    set (low := fun i => if Nat.ltb i s then fT ims j i else 0).
    exists (back (zap p low)). split; [|split].
    + intros i Hi. unfold back in Hi. destruct (Nat.ltb_spec i n) as [Hin|]; [|lia]. apply zap_nz in Hi. unfold low in Hi.
      destruct (Nat.ltb_spec (nth i rhoA 0%nat) s) as [Hl|Hl]; [|elim Hi; reflexivity].
      destruct (lt_dec i s) as [|Hge]; auto. destruct (rho2 i ltac:(lia)). lia.
    + intros i Hi. rewrite CIm by auto. fold j. rewrite Hg by auto. unfold V. fold j. rewrite !Hback by auto.
      pose proof (rr_FT _ _ _ _ _ _ R j ltac:(lia) (nth i rhoB 0%nat)) as X. rewrite C2 in X. rewrite X. rewrite <- lc_add.
      apply lc_cong; [|reflexivity]. intros t Ht. cbn beta. rewrite (zap_cong p low t). unfold low, cut. destruct (Nat.ltb t s); apply cong_eq; ring.
    + assert (Eb : snd (nth k (b_bars Im) (0, 0)) = ic_death (nth j ims dI)).
      { rewrite P7. rewrite (nth_map _ _ _ 0%nat) by auto. rewrite Nib by auto. reflexivity. }
      destruct (Z.eq_dec (ic_death (nth j ims dI)) (hi A' j)) as [E|E].
      * left. destruct (pi2 j ltac:(lia)) as [_ X]. exists (nth j piA 0%nat). split; auto. rewrite Eb, E. unfold hi.
        rewrite (sa_nth _ _ _ _ _ SA j) by lia. reflexivity.
      * right. intros i. unfold back. destruct (Nat.ltb_spec i n); auto. unfold zap. destruct (cong_dec p (low (nth i rhoA 0%nat)) 0) as [|Hn]; auto.
        elim Hn. unfold low. destruct (Nat.ltb_spec (nth i rhoA 0%nat) s) as [Hl|Hl]; [|reflexivity].
        apply (rr_strip _ _ _ _ _ _ R j); auto; lia.
  - intros x Hx. rewrite P7 in Hx. apply in_map_iff in Hx. destruct Hx as (t & <- & Ht). apply SIin in Ht. destruct Ht as [Ht _]. rewrite Lib in Ht.
    rewrite Nib by auto. cbn [fst snd]. split.
    + destruct (pi2 (s + t)%nat ltac:(lia)) as [_ X]. exists (nth (s + t) piA 0%nat). split; auto. unfold lo. rewrite (sa_nth _ _ _ _ _ SA) by lia. reflexivity.
    + pose proof (rr_in _ _ _ _ _ _ R (s + t)%nat ltac:(lia)) as X. unfold radii in X. rewrite zunique_In, in_app_iff, !changes_In in X.
      destruct X as [(i & Hi & E)|(i & Hi & E)]; [left|right].
      * exists (nth (nth i piA 0%nat) (b_bars A) (0, 0)). rewrite <- A'd, A'dim in Hi. destruct (bj_2 _ _ _ BA i Hi) as [Xi _].
        rewrite (sa_nth _ _ _ _ _ SA i Hi) in E. split; [apply nth_In; lia|auto].
      * exists (nth (nth i piB 0%nat) (b_bars B) (0, 0)). rewrite <- B'd, B'dim in Hi. destruct (bj_2 _ _ _ BB i Hi) as [Xi _].
        rewrite (sa_nth _ _ _ _ _ SB i Hi) in E. split; [apply nth_In; lia|auto].
  - intros k Hk. rewrite P9 in Hk. pose proof (HlI k Hk) as Xk.
    assert (Nim : forall t, (t < length lI)%nat -> nth t (b_bars Im) (0, 0) = (lo A' (s + nth t lI 0%nat), ic_death (nth (s + nth t lI 0%nat) ims dI))).
    { intros t Ht. rewrite P7. rewrite (nth_map _ _ _ 0%nat) by auto. apply Nib. auto. }
    assert (Hne : lo A' (s + nth k lI 0%nat) < ic_death (nth (s + nth k lI 0%nat) ims dI)).
    { assert (H : In (nth k lI 0%nat) lI) by (apply nth_In; auto). apply SIin in H. rewrite Nib in H by auto. apply H. }
    rewrite (Nim k Hk). cbn [fst snd]. set (r := ic_death (nth (s + nth k lI 0%nat) ims dI)) in *.
    destruct (Rdead r (s + nth k lI 0%nat)%nat) as (c & Hc & Hv); [lia|lia|unfold r; lia|]. rewrite C2 in Hc, Hv.
    set (ok := fun l => (okf A' s ims r l && Nat.ltb l (s + nth k lI 0%nat))%bool) in *.
    assert (Hokl : forall t, (t < n - s)%nat -> ok (s + t)%nat = true -> In t lI).
    { intros t Ht Ho. apply SIin. rewrite Lib, Nib by auto. split; auto. cbn [fst snd]. unfold ok, okf in Ho.
      rewrite !andb_true_iff, Z.leb_le, Z.ltb_lt in Ho. lia. }
    set (c' := fun t => if Nat.ltb t (length lI) then zap p c (s + nth t lI 0%nat)%nat else 0).
    exists c'. split.
    + intros t Ht. unfold c' in Ht. destruct (Nat.ltb_spec t (length lI)) as [Hl|]; [|lia]. apply zap_nz in Ht. rewrite P9. split; auto.
      rewrite (Nim t Hl). cbn [fst snd]. apply Hc in Ht; [|specialize (HlI t Hl); lia].
      unfold okf in Ht. rewrite !andb_true_iff, Nat.leb_le, Z.leb_le, Z.ltb_lt, Nat.ltb_lt in Ht. split; [|lia].
      apply Hsrt; lia.
    + apply HNB. apply (NBc r) with (2 := Hv). rewrite R2. intros i Hi. apply alive_iff in Hi. destruct Hi as (Hi & _).
      rewrite Hg by auto. rewrite Vpi by auto. apply cong_sub; [reflexivity|].
      rewrite (lc_tail p n s); [|lia|].
      2:{ intros j Hj. destruct (cong_dec p (c j) 0) as [|E]; auto. apply Hc in E; [|lia]. unfold okf in E. rewrite !andb_true_iff, Nat.leb_le in E. exfalso; lia. }
      rewrite P9. unfold lc.
      rewrite (Zsum_cong p (n - s) _ (fun t => zap p c (s + t)%nat * mv F2 s ims (s + t)%nat i)) by (intros t Ht; rewrite (zap_cong p c (s + t)%nat); reflexivity).
      rewrite <- (LC_props.Zsum_select (n - s) lI); auto.
      3:{ intros t Ht Hin. unfold zap. destruct (cong_dec p (c (s + t)%nat) 0) as [E|E]; [ring|]. elim Hin. apply Hokl; auto. apply Hc; auto. lia. }
      * apply cong_eq. apply Zsum_ext. intros t Ht. unfold c'. destruct (Nat.ltb_spec t (length lI)); [|lia]. rewrite Hg, Vpi by auto. reflexivity.
      * intros t Ht. apply SIin in Ht. lia.
  - intros k i Hk Hi Hn. rewrite P9 in Hk. pose proof (HlI k Hk) as Xk. rewrite Hg in Hn by auto.
    destruct (bj_1 _ _ _ BB i Hi) as [Xi Yi]. rewrite <- Yi in Hn. rewrite Vpi in Hn by auto. unfold mv in Hn. rewrite C2 in Hn.
    rewrite P7. rewrite (nth_map _ _ _ 0%nat) by auto. rewrite Nib by auto. cbn [fst].
    destruct (Z_le_gt_dec (fst (bar_ B i)) (lo A' (s + nth k lI 0%nat))) as [|Hgt]; auto. elim Hn. apply lc_cong0. intros j Hj.
    destruct (cong_dec p (cut s (fT ims (s + nth k lI 0%nat)) j) 0) as [E|E]; [rewrite E; apply cong_eq; ring|]. apply cut_nz in E. destruct E as [E1 E2].
    apply (rr_supp _ _ _ _ _ _ R) in E2; [|lia]. pose proof (Hsrt j (s + nth k lI 0%nat)%nat ltac:(lia) ltac:(lia)) as Hle.
    destruct (cong_dec p (fF F2 j (nth i rhoB 0%nat)) 0) as [E'|E']; [rewrite E'; apply cong_eq; ring|]. exfalso.
    unfold fF in E'. fold (get F2 (nth i rhoB 0%nat) j) in E'. rewrite G in E' by auto. rewrite Yi in E'.
    destruct (bj_2 _ _ _ BA j Hj) as [Xj _]. unfold lo in Hle, Hgt. rewrite (sa_nth _ _ _ _ _ SA j Hj) in Hle.
    pose proof (Hbirth i (nth j piA 0%nat) Hi Xj ltac:(intros X; apply E'; apply mod_cong; auto)). lia.
  - intros HU k Hk. specialize (HU _ _ _ _ _ _ eq_refl EA). rewrite P9 in Hk. pose proof (HlI k Hk) as Xk.
    destruct (rr_unit _ _ _ _ _ _ R HU (nth k lI 0%nat)) as [Hlow Hd].
    { destruct HU as [X _]. lia. }
    split.
    + intros i Hi. rewrite CIm by auto. rewrite Hg by auto. unfold V. rewrite Hback by auto.
      pose proof (rr_FT _ _ _ _ _ _ R (s + nth k lI 0)%nat ltac:(lia) (nth i rhoB 0%nat)) as X. rewrite C2 in X. rewrite X.
      apply lc_cong; [|reflexivity]. intros t Ht. unfold cut. destruct (Nat.ltb_spec t s) as [Hts|]; [apply Hlow; auto|reflexivity].
    + apply HNB. rewrite P7. rewrite (nth_map _ _ _ 0%nat) by auto. rewrite Nib by auto. cbn [snd].
      apply (NBc _ (mv F2 s ims (s + nth k lI 0%nat))); auto. rewrite R2. intros i Hi. apply alive_iff in Hi. rewrite Hg, Vpi by tauto. reflexivity.
Qed.
End Rel.

(** With no column from [s] on there is no basis to return. *)
Lemma image_kernel_rel_empty rnd p A B F : prime p -> bars_ok A -> bars_ok B -> b_brk B = None -> b_dim B = nrows F -> b_dim A = ncols F ->
  wf_mat F -> (forall i j, 0 <= get F i j) -> (0 < ncols F)%nat -> b_sorted A = false ->
  (forall i j, (i < nrows F)%nat -> (j < ncols F)%nat -> get F i j mod p <> 0 -> fst (nth i (b_bars B) (0, 0)) <= fst (nth j (b_bars A) (0, 0))) ->
  image_kernel rnd A B F p (ncols F) = Err UnboundLocalError.
Proof.
  intros Hp HA HB Hbrk Hrows Hcols Hwf Hnn Hs Huns Hbirth.
  assert (p_pos : 0 < p) by (destruct Hp; lia). set (n := ncols F) in *. set (m := nrows F) in *.
  pose proof HA as (HAf & HAd & HAn). pose proof HB as (HBf & HBd & HBn).
  destruct (order_B_spec rnd B F HB Hbrk Hrows Hwf) as (B' & F1 & rhoB & piB & EB & SB & Hbrk' & R1 & C1 & W1 & G1).
  destruct (order_A_spec rnd A F1 n HA Huns ltac:(unfold n in *; congruence) W1 ltac:(fold n in C1; lia)) as (A' & F2 & rA & pA & EA & BAr & SA & R2 & C2 & W2 & G2 & Hsrt).
  { rewrite skipn_all2 by (unfold n in *; lia). intros x y []. }
  fold m in R1, SB, G1. fold n in C1, G1. rewrite R1 in R2. rewrite C1 in C2, G2, Hsrt, SA, BAr.
  set (piA := shift_by n pA) in *. set (rhoA := shift_by n rA) in *.
  assert (G : forall i j, (i < m)%nat -> (j < n)%nat -> get F2 i j = get F (nth i piB 0%nat) (nth j piA 0%nat)).
  { intros i j Hi Hj. rewrite G2 by auto. apply G1; auto. apply (bj_2 _ _ _ (sa_bij _ _ _ _ _ SA)). auto. }
  pose proof (sa_bij _ _ _ _ _ SA) as BA. pose proof (sa_bij _ _ _ _ _ SB) as BB.
  pose proof (sa_ok _ _ _ _ _ SA) as (A'f & A'd & A'n). pose proof (sa_ok _ _ _ _ _ SB) as (B'f & B'd & B'n).
  pose proof (sa_dim _ _ _ _ _ SA) as A'dim. pose proof (sa_dim _ _ _ _ _ SB) as B'dim.
  destruct (rel_loop_result p A' B' F2 n) as (ims & EL & EI & R & Rdead); auto; try congruence; try lia.
  { rewrite C2, R2. intros j i Hj Hi Hn. unfold lo, hi. rewrite (sa_nth _ _ _ _ _ SA j Hj), (sa_nth _ _ _ _ _ SB i Hi).
    destruct (bj_2 _ _ _ BA j Hj) as [Xa _]. destruct (bj_2 _ _ _ BB i Hi) as [Xb _].
    apply Hbirth; try lia. intros E. apply Hn. unfold fF. fold (get F2 i j). rewrite G by auto. apply mod_cong; auto. }
  { intros j i. unfold fF. fold (get F2 i j). destruct (lt_dec j n) as [Hj|Hj].
    - destruct (lt_dec i m) as [Hi|Hi]; [rewrite G by auto; apply Hnn|]. unfold get. rewrite vget_out; [lia|]. rewrite wf_col; auto; lia.
    - unfold get. rewrite vget_out; [lia|]. unfold col. rewrite nth_overflow; [cbn; lia|]. unfold ncols in C2 at 1. unfold vec in *. lia. }
  unfold image_kernel. fold n m. rewrite Hrows, Hcols, !Nat.eqb_refl. cbn [negb orb]. rewrite EB. cbn [bind]. rewrite EA. cbn [bind].
  rewrite A'dim. replace (map (fun j : nat => ICol (fst (nth j (b_bars A') (0, 0))) 0 (col F2 j) (vunit n j) (-2)) (seq 0 n)) with (ims0 A' F2)
    by (unfold ims0; rewrite C2; reflexivity).
  change (zunique (changes_list A' ++ changes_list B')) with (radii A' B'). rewrite EL. cbn [bind]. rewrite EI. cbn [bind].
  rewrite Hbrk'. destruct (Nat.ltb_spec 0 n) as [_|]; [|lia]. cbn [orb bind]. rewrite B'dim.
  assert (Lims : length ims = n) by (rewrite (rr_len _ _ _ _ _ _ R); auto).
  set (CI := Mat m (map ic_col ims)).
  rewrite (take_rows_err_bij CI m piB rhoB eq_refl BB). cbn [bind].
  rewrite (skipn_all2 (map _ ims)) by (rewrite map_length; lia).
  rewrite (skipn_all2 (cols (take_rows CI rhoB))) by (unfold take_rows, CI; cbn [cols]; rewrite !map_length; lia).
  reflexivity.
Qed.
