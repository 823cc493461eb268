(** * [image_kernel] with a broken codomain: the invariant of the main loop *)
From Verif Require Import Base ListX SortX Lin Gauss_model Gauss_arith Gauss_col Spec_Gauss Basis_model Basis_props PH_model IK_model IK_pivot IK_lin IK_phase IK_kphase IK_inv IK_loop IK_rel IK_broken.
From Coq Require Import Znumtheory Sorting.Sorted.
Local Open Scope Z_scope.

Lemma zipw_length {X Y Z0} (f : X -> Y -> Z0) : forall u v, length u = length v -> length (zipw f u v) = length u.
Proof. induction u as [|a u IH]; intros [|b v] H; cbn in *; try discriminate; auto. Qed.
Lemma nth_zipw {X Y Z0} (f : X -> Y -> Z0) dx dy dz : forall u v k, length u = length v -> (k < length u)%nat ->
  nth k (zipw f u v) dz = f (nth k u dx) (nth k v dy).
Proof. induction u as [|a u IH]; intros [|b v] [|k] H Hk; cbn in *; try lia; auto. apply IH; lia. Qed.

Lemma enum_len {X} (l : list X) : length (enum l) = length l.
Proof. unfold enum. rewrite combine_length, seq_length. lia. Qed.
Lemma nth_enumb {X} (l : list X) j x y : (j < length l)%nat -> nth j (enum l) (y, x) = (j, nth j l x).
Proof.
  intros H. unfold enum. rewrite combine_nth by (rewrite seq_length; auto).
  rewrite (nth_indep _ y 0%nat) by (rewrite seq_length; auto). rewrite seq_nth by auto. reflexivity.
Qed.

Section Br.
Variables (p M : Z) (A B : basis) (F E : mat).
Notation n := (ncols F).
Notation b := (lo B).
Notation d := (hi B).
Notation al := (alive n b d).
Hypothesis Hp : prime p.
Hypothesis HF : wf_mat F.
Hypothesis Hsq : nrows F = n.
Hypothesis HF1 : forall j i, (j < n)%nat -> fF F j i = funit j i.
Hypothesis HA : b_flat A = false.
Hypothesis HB : b_flat B = false.
Hypothesis HAd : b_dim A = length (b_bars A).
Hypothesis HBd : b_dim B = length (b_bars B).
Hypothesis HAn : b_dim A = n.
Hypothesis HBn : b_dim B = n.
Hypothesis Hbrk : b_brk B = Some E.
Hypothesis HEr : nrows E = n.
Hypothesis HEw : wf_mat E.
Hypothesis Hb : forall i, (i < n)%nat -> lo A i = b i.
Hypothesis HdA : forall i, (i < n)%nat -> hi A i = M.
Hypothesis Hbar : forall i, (i < n)%nat -> b i < d i <= M.
Hypothesis Hsort : forall i j, (i <= j)%nat -> (j < n)%nat -> b i <= b j.
Hypothesis HE : forall i k, (i < n)%nat -> (k < n)%nat -> ~ cong p (get E i k) 0 -> b i <= d k /\ forall l, (l < n)%nat -> cong p (get E l i) 0.

Local Lemma pp : 2 <= p.
Proof. apply prime_ge_2; auto. Qed.
Local Lemma mz x : x mod p = 0 <-> cong p x 0.
Proof. pose proof pp. assert (X : p <> 0) by lia. rewrite (cong_iff_mod p x 0 X). rewrite Z.mod_0_l by lia. reflexivity. Qed.

(** ** The relations *)
Definition REL (k : nat) : fvec := fun i => funit k i - get E i k.
Definition rel (r : Z) (u : fvec) : Prop :=
  exists c, (forall k, (k < n)%nat -> r < d k -> cong p (c k) 0) /\ forall i, cong p (u i) (lc n c REL i).

Lemma rel_cong r u v : (forall i, cong p (u i) (v i)) -> rel r u -> rel r v.
Proof. intros H (c & H1 & H2). exists c. split; auto. intros i. rewrite <- H. apply H2. Qed.

Lemma rel_mono r r' u : r <= r' -> rel r u -> rel r' u.
Proof. intros H (c & H1 & H2). exists c. split; auto. intros k Hk Hr. apply H1; auto. lia. Qed.

Lemma rel_lc r N c (W : nat -> fvec) : (forall k, (k < N)%nat -> cong p (c k) 0 \/ rel r (W k)) -> rel r (lc N c W).
Proof.
  intros HW.
  destruct (fin_choose (fun _ : nat => 0) N (fun k D => (forall l, (l < n)%nat -> r < d l -> cong p (D l) 0) /\
    (cong p (c k) 0 \/ forall i, cong p (W k i) (lc n D REL i)))) as (D & HD).
  { intros k Hk. destruct (HW k Hk) as [X|(D & D1 & D2)]; [exists (fun _ => 0); split; auto; intros; reflexivity|exists D; auto]. }
  exists (lc N c D). split.
  - intros l Hl Hr. apply lc_cong0. intros k Hk. destruct (HD k Hk) as [X _]. rewrite (X l Hl Hr). apply cong_eq; ring.
  - intros i. rewrite lc_lc. unfold lc at 1 2. apply Zsum_cong. intros k Hk. destruct (HD k Hk) as [_ [X|X]]; [rewrite X; apply cong_eq; ring|].
    rewrite (X i). reflexivity.
Qed.

Lemma rel_zero r u : (forall i, cong p (u i) 0) -> rel r u.
Proof. intros H. apply (rel_cong r (lc 0 (fun _ => 0) (fun _ _ => 0))); [intros i; rewrite H; reflexivity|]. apply rel_lc. intros; lia. Qed.

Lemma rel_comb r x u y v : rel r u -> rel r v -> rel r (fun i => x * u i + y * v i).
Proof.
  intros Hu Hv. apply (rel_cong r (lc 2 (fun k => match k with O => x | _ => y end) (fun k => match k with O => u | _ => v end))).
  - intros i. unfold lc. cbn [Zsum]. apply cong_eq; ring.
  - apply rel_lc. intros [|k] _; auto.
Qed.
Lemma rel_add r u v : rel r u -> rel r v -> rel r (fun i => u i + v i).
Proof. intros Hu Hv. apply (rel_cong r (fun i => 1 * u i + 1 * v i)); [intros; apply cong_eq; ring|apply rel_comb; auto]. Qed.
Lemma rel_sub r u v : rel r u -> rel r v -> rel r (fun i => u i - v i).
Proof. intros Hu Hv. apply (rel_cong r (fun i => 1 * u i + (-1) * v i)); [intros; apply cong_eq; ring|apply rel_comb; auto]. Qed.

Lemma rel_gen r k : (k < n)%nat -> d k <= r -> rel r (REL k).
Proof.
  intros Hk Hd. exists (funit k). split.
  - intros l Hl Hr. unfold funit. destruct (Nat.eqb_spec l k) as [->|]; [lia|reflexivity].
  - intros i. rewrite lc_unit by auto. reflexivity.
Qed.

Lemma rel_dead r i : (i < n)%nat -> d i <= r -> (forall l, (l < n)%nat -> cong p (get E l i) 0) -> rel r (funit i).
Proof.
  intros Hi Hd Hz. apply (rel_cong r (REL i)); [|apply rel_gen; auto]. intros l. unfold REL.
  destruct (lt_dec l n) as [Hl|Hl]; [rewrite (Hz l Hl); apply cong_eq; ring|].
  unfold get. rewrite vget_out; [apply cong_eq; ring|]. destruct (lt_dec i (ncols E)) as [Hi'|Hi'].
  - rewrite wf_col; auto. lia.
  - unfold col. rewrite nth_overflow; [cbn; lia|]. unfold ncols in Hi'. unfold vec in *. lia.
Qed.

(** A vector on the living rows which is zero in the quotient is zero. *)
Lemma rel_normal r u : rel r u -> (forall i, (i < n)%nat -> al r i = false -> cong p (u i) 0) -> forall i, cong p (u i) 0.
Proof.
  intros (c & Hc & Hu) Hz.
  assert (Hdead : forall k, (k < n)%nat -> ~ cong p (c k) 0 -> cong p (u k) 0).
  { intros k Hk Hn. apply Hz; auto. destruct (al r k) eqn:X; auto. apply alive_iff in X. elim Hn. apply Hc; auto. lia. }
  assert (Hrow : forall k, (k < n)%nat -> cong p (u k) (c k - Zsum n (fun l => c l * get E k l))).
  { intros k Hk. rewrite Hu. unfold lc, REL. rewrite (Zsum_ext n _ (fun l => c l * funit l k - c l * get E k l)) by (intros; ring).
    rewrite Zsum_sub. change (Zsum n (fun l => c l * funit l k)) with (lc n c funit k). rewrite lc_funit by auto. reflexivity. }
  assert (HA1 : forall k, (k < n)%nat -> (forall l, (l < n)%nat -> cong p (get E k l) 0) -> cong p (c k) 0).
  { intros k Hk Hr. destruct (cong_dec p (c k) 0) as [|Hn]; auto. elim Hn. specialize (Hrow k Hk). rewrite (Hdead k Hk Hn) in Hrow.
    rewrite Zsum_cong0 in Hrow; [rewrite Hrow; apply cong_eq; ring|]. intros l Hl. rewrite (Hr l Hl). apply cong_eq; ring. }
  assert (HB1 : forall k, (k < n)%nat -> cong p (c k) 0).
  { intros k Hk. destruct (cong_dec p (c k) 0) as [|Hn]; auto. elim Hn. specialize (Hrow k Hk). rewrite (Hdead k Hk Hn) in Hrow.
    rewrite Zsum_cong0 in Hrow; [rewrite Hrow; apply cong_eq; ring|]. intros l Hl.
    destruct (cong_dec p (get E k l) 0) as [X|X]; [rewrite X; apply cong_eq; ring|].
    rewrite (HA1 l Hl); [apply cong_eq; ring|]. intros q Hq. destruct (cong_dec p (get E l q) 0) as [|Y]; auto. elim X.
    apply (HE l q); auto. }
  intros i. rewrite Hu. apply lc_cong0. intros k Hk. rewrite (HB1 k Hk). apply cong_eq; ring.
Qed.

(** Columns of [E] which are not zero. *)
Definition extb (q : nat) : bool := existsb (fun i => negb (get E i q mod p =? 0)) (seq 0 n).
Lemma extb_iff q : extb q = true <-> exists i, (i < n)%nat /\ ~ cong p (get E i q) 0.
Proof.
  unfold extb. rewrite existsb_exists. split; intros (i & H1 & H2); exists i.
  - apply in_seq in H1. split; [lia|]. apply negb_true_iff, Z.eqb_neq in H2. intros C. apply H2. apply mz. auto.
  - rewrite in_seq. split; [lia|]. apply negb_true_iff, Z.eqb_neq. intros C. apply H2. apply mz. auto.
Qed.
Lemma extb_row q k : (q < n)%nat -> (k < n)%nat -> extb q = true -> cong p (get E q k) 0.
Proof.
  intros Hq Hk H. destruct (cong_dec p (get E q k) 0) as [|X]; auto. apply extb_iff in H. destruct H as (i & Hi & Hn).
  elim Hn. apply (HE q k); auto.
Qed.

(** ** The invariant *)
Definition okr (ims : list icol) (r : Z) (j : nat) : bool :=
  (b j <=? r) && (negb (pv ims j =? -1) || (r <? ic_death (nth j ims dI))).

Record past (ims : list icol) (r : Z) : Prop := {
  ps_T : exists T : nat -> fvec, (forall j, (j < n)%nat -> tri p j (T j)) /\
    (forall j, (j < n)%nat -> b j <= r -> okr ims r j = false -> rel r (T j)) /\ qindep p (rel r) n T (okr ims r)
}.

Record BInv (done : list Z) (rho : Z) (ims : list icol) : Prop := {
  bi_len : length ims = n;
  bi_wf : forall j, (j < n)%nat -> wf_ic F (nth j ims dI);
  bi_birth : forall j, (j < n)%nat -> ic_birth (nth j ims dI) = b j;
  bi_range : forall j, (j < n)%nat -> pv ims j = -2 \/ pv ims j = -1 \/ 0 <= pv ims j;
  bi_unborn : forall j, (j < n)%nat -> (pv ims j = -2 <-> rho < b j);
  bi_init : forall j, (j < n)%nat -> pv ims j = -2 -> forall i, cong p (fC ims j i) (funit j i) /\ cong p (fT ims j i) (funit j i);
  bi_tri : forall j, (j < n)%nat -> tri p j (fT ims j);
  bi_supp : forall j i, (j < n)%nat -> (i < n)%nat -> pv ims j <> -2 -> ~ cong p (fC ims j i) 0 -> b i <= rho;
  bi_rel : forall j, (j < n)%nat -> pv ims j <> -2 -> rel rho (fun i => fT ims j i - on (al rho) (fC ims j) i);
  bi_piv : forall j, (j < n)%nat -> 0 <= pv ims j -> is_piv p (on (al rho) (fC ims j)) (Z.to_nat (pv ims j));
  bi_dist : forall i j, (i < n)%nat -> (j < n)%nat -> i <> j -> 0 <= pv ims i -> pv ims i <> pv ims j;
  bi_dead : forall j, (j < n)%nat -> pv ims j = -1 -> zon p (al rho) (fC ims j) /\ b j <= ic_death (nth j ims dI) <= rho;
  bi_own : forall q, al rho q = true -> extb q = true ->
    (forall j, (j < n)%nat -> j <> q -> cong p (fC ims j q) 0) /\ (forall i, al rho i = true -> i <> q -> cong p (fC ims q i) 0) /\
    ~ cong p (fC ims q q) 0;
  bi_past : forall r, In r done -> past ims r
}.

Section Upd.
Variables (rad : Z) (ims : list icol) (dyA : list nat).
Hypothesis Hilen : length ims = n.
Hypothesis Hiwf : forall j, (j < n)%nat -> wf_ic F (nth j ims dI).
Hypothesis Hibirth : forall j, (j < n)%nat -> ic_birth (nth j ims dI) = b j.
Hypothesis HdyA : forall i, In i dyA <-> (i < n)%nat /\ M = rad.

Let kims := map (rel_kill 0 dyA rad) (enum ims).
Definition bhit (j : nat) : bool := (M =? rad) && negb (pv ims j =? -1).

Lemma bk_nth j : (j < n)%nat -> nth j kims dI = if bhit j then set_piv (set_death (nth j ims dI) rad) (-1) else nth j ims dI.
Proof.
  intros Hj. unfold kims. rewrite (nth_map _ (enum ims) j (0%nat, dI)) by (rewrite enum_len, Hilen; auto).
  rewrite nth_enumb by (rewrite Hilen; auto). unfold rel_kill, bhit, pv. cbn [Nat.leb]. rewrite andb_true_r.
  replace (memn j dyA) with (M =? rad); [reflexivity|]. apply Bool.eq_iff_eq_true. rewrite memn_In, HdyA, Z.eqb_eq. tauto.
Qed.
Lemma bk_len : length kims = n.
Proof. unfold kims. rewrite map_length, enum_len. exact Hilen. Qed.

Local Notation dyk k := (d k =? rad).

Lemma upd_gen : exists uims, (M' <- update_broken B (Mat (b_dim B) (map ic_col kims)) rad p ;; Ok ([] : list kcol, zipw set_col kims (cols M'))) = Ok ([], uims) /\
  length uims = n /\
  (forall j, (j < n)%nat -> wf_ic F (nth j uims dI) /\ ic_birth (nth j uims dI) = b j /\ ic_T (nth j uims dI) = ic_T (nth j ims dI) /\
     pv uims j = (if bhit j then -1 else pv ims j) /\ ic_death (nth j uims dI) = (if bhit j then rad else ic_death (nth j ims dI)) /\
     (forall i, (i < n)%nat -> cong p (fC uims j i) ((if dyk i then 0 else fC ims j i) + Zsum n (fun k => if dyk k then get E i k * fC ims j k else 0)))).
Proof.
  pose proof bk_len as Lk. pose proof bk_nth as Bk. clear HE Hsort Hbar HdA Hb HAn HAd HA HF1.
  pose proof pp as H2.
  destruct (C31_aux B E (Mat (b_dim B) (map ic_col kims)) rad p HB HBd Hbrk ltac:(congruence) eq_refl) as [U1 U2].
  assert (Hk : forall j, (j < n)%nat -> ic_col (nth j kims dI) = ic_col (nth j ims dI) /\ ic_T (nth j kims dI) = ic_T (nth j ims dI) /\
    ic_birth (nth j kims dI) = b j /\ pv kims j = (if bhit j then -1 else pv ims j) /\ ic_death (nth j kims dI) = (if bhit j then rad else ic_death (nth j ims dI))).
  { intros j Hj. unfold pv. rewrite !Bk by auto. pose proof (Hibirth j Hj). destruct (bhit j); cbn; auto. }
  assert (Hget : forall i j, (j < n)%nat -> get (Mat (b_dim B) (map ic_col kims)) i j = fC ims j i).
  { intros i j Hj. unfold get, col. cbn [cols]. rewrite (nth_map _ kims j dI) by lia. unfold fC. destruct (Hk j Hj) as [-> _]. reflexivity. }
  destruct (existsb (fun k => dyk k) (seq 0 n)) eqn:Ex.
  - apply existsb_exists in Ex. destruct Ex as (k0 & K1 & K2). apply in_seq in K1. apply Z.eqb_eq in K2.
    destruct U2 as (A' & EA & R1 & R2 & G). { exists k0. rewrite HBn. split; [lia|]. exact K2. }
    rewrite EA. cbn [bind].
    assert (LA : length kims = length (cols A')).
    { unfold ncols in R2. cbn [cols] in R2. rewrite map_length in R2. unfold vec in *. lia. }
    cbn [nrows ncols cols] in R1, R2, G.
    exists (zipw set_col kims (cols A')). split; [reflexivity|]. split; [rewrite zipw_length; auto|].
    assert (HW : wf_mat A').
    { unfold update_broken in EA. destruct (death B rad) as [dy|]; cbn [bind] in EA; [|discriminate]. rewrite Hbrk in EA.
      destruct (Nat.ltb 0 (length dy)).
      - destruct (negb (Nat.eqb _ _)); [discriminate|]. injection EA as <-. unfold wf_mat. cbn [nrows cols]. apply Forall_forall.
        intros c Hc. apply in_map_iff in Hc. destruct Hc as (c0 & <- & _). rewrite map_length, seq_length. reflexivity.
      - injection EA as <-. unfold wf_mat. cbn [nrows cols]. apply Forall_forall. intros c Hc. apply in_map_iff in Hc. destruct Hc as (c0 & <- & Hc).
        apply In_nth with (d := dI) in Hc. destruct Hc as (j & Hj & <-). destruct (Hk j ltac:(lia)) as [-> _].
        destruct (Hiwf j ltac:(lia)) as (X & _). lia. }
    intros j Hj. unfold pv, fC. rewrite (nth_zipw set_col dI [] dI) by (auto; lia). unfold set_col. cbn [ic_birth ic_death ic_col ic_T ic_piv].
    destruct (Hk j Hj) as (X1 & X2 & X3 & X4 & X5). rewrite X2. 
    assert (Lc : length (nth j (cols A') []) = n).
    { change (nth j (cols A') []) with (col A' j). rewrite wf_col; [lia|auto|]. unfold ncols, vec in *. lia. }
    assert (Gv : forall i, (i < n)%nat -> vget (nth j (cols A') []) i = ((if dyk i then 0 else fC ims j i) + Zsum n (fun k => if dyk k then get E i k * fC ims j k else 0)) mod p).
    { intros i Hi. specialize (G i j ltac:(lia)). unfold ncols in G. cbn [cols] in G. rewrite map_length in G. specialize (G ltac:(lia)).
      unfold get at 1 in G. unfold col in G. rewrite G. rewrite Hget by auto. rewrite HBn. apply (f_equal (fun x => x mod p)). apply (f_equal2 Z.add); [reflexivity|]. apply Zsum_ext. intros k Hk'. rewrite <- HBn. rewrite Hget by auto. reflexivity. }
    destruct (Hiwf j Hj) as (W1 & W2 & W3 & W4).
    split; [|split; [|split; [|split; [|split]]]]; auto.
    + split; [cbn; lia|]. cbn. split; [auto|]. split; [|auto]. intros i. destruct (lt_dec i n) as [Hi|Hi]; [rewrite Gv by auto; apply Z.mod_pos_bound; lia|].
      rewrite vget_out by lia. lia.
    + intros i Hi. fold (fC ims j i). rewrite Gv by auto. rewrite cong_mod. reflexivity.
  - assert (Hno : forall k, (k < n)%nat -> dyk k = false).
    { intros k Hk'. destruct (dyk k) eqn:X; auto. assert (existsb (fun k => dyk k) (seq 0 n) = true); [|congruence]. apply existsb_exists. exists k. split; auto. apply in_seq. lia. }
    rewrite U1. 2:{ intros k [K1 K2]. rewrite HBn in K1. specialize (Hno k K1). unfold hi in Hno. rewrite K2, Z.eqb_refl in Hno. discriminate. }
    cbn [bind cols].
    exists (zipw set_col kims (map ic_col kims)). split; [reflexivity|]. split; [rewrite zipw_length; auto; rewrite map_length; auto|].
    intros j Hj. unfold pv, fC. rewrite (nth_zipw set_col dI [] dI) by (rewrite ?map_length; auto; lia). unfold set_col. cbn [ic_birth ic_death ic_col ic_T ic_piv].
    rewrite (nth_map _ kims j dI) by lia.
    destruct (Hk j Hj) as (X1 & X2 & X3 & X4 & X5). rewrite X1, X2.
    destruct (Hiwf j Hj) as (W1 & W2 & W3 & W4).
    split; [|split; [|split; [|split; [|split]]]]; auto.
    + split; auto.
    + intros i Hi. fold (fC ims j i). rewrite (Hno i Hi). rewrite Zsum_0; [apply cong_eq; ring|]. intros k Hk'. rewrite Hno by auto. reflexivity.
Qed.
End Upd.

Section Step.
Variables (done : list Z) (rho rad : Z) (ims : list icol) (dyA : list nat).
Hypothesis HI : BInv done rho ims.
Hypothesis Hnext : next F (lo A) (hi A) b d done rho rad.
Hypothesis HdyA : forall i, In i dyA <-> (i < n)%nat /\ M = rad.
Local Notation bhit := (bhit rad ims).
Local Notation dyk k := (d k =? rad).

Section Phase.
Variables (actB birA dyB : list nat) (uims : list icol).
Hypothesis HactB : StronglySorted lt actB.
Hypothesis HactB' : forall i, mem actB i = al rad i.
Hypothesis HbirA : forall i, In i birA <-> (i < n)%nat /\ b i = rad.
Hypothesis HdyB : forall i, In i dyB <-> (i < n)%nat /\ d i = rad.
Hypothesis HuL : length uims = n.
Hypothesis Hu : forall j, (j < n)%nat -> wf_ic F (nth j uims dI) /\ ic_birth (nth j uims dI) = b j /\ ic_T (nth j uims dI) = ic_T (nth j ims dI) /\
     pv uims j = (if bhit j then -1 else pv ims j) /\ ic_death (nth j uims dI) = (if bhit j then rad else ic_death (nth j ims dI)) /\
     (forall i, (i < n)%nat -> cong p (fC uims j i) ((if dyk i then 0 else fC ims j i) + Zsum n (fun k => if dyk k then get E i k * fC ims j k else 0))).

Local Lemma Hrr : rho < rad.
Proof. apply Hnext. Qed.
Local Lemma nb i : (i < n)%nat -> (b i <= rho \/ rad <= b i) /\ (d i <= rho \/ rad <= d i).
Proof. intros Hi. destruct Hnext as (_ & _ & _ & N). apply N. rewrite Hsq. auto. Qed.

(** A bar which dies at [rad] is alive before. *)
Lemma dy_alive k : (k < n)%nat -> d k = rad -> al rho k = true.
Proof. intros Hk Hd. apply alive_iff. pose proof (Hbar k Hk). pose proof Hrr. destruct (nb k Hk) as [[X|X] _]; lia. Qed.

Lemma al_rad i : al rad i = true -> (i < n)%nat /\ dyk i = false /\ (al rho i = true \/ rho < b i).
Proof.
  intros H. apply alive_iff in H. destruct H as (H1 & H2 & H3). split; auto. split; [apply Z.eqb_neq; lia|].
  pose proof Hrr. destruct (Z_le_gt_dec (b i) rho); [left; apply alive_iff; lia|right; lia].
Qed.

Lemma u_T j i : (j < n)%nat -> fT uims j i = fT ims j i.
Proof. intros Hj. unfold fT. destruct (Hu j Hj) as (_ & _ & -> & _). reflexivity. Qed.

Lemma u_out j i : (j < n)%nat -> (n <= i)%nat -> fC uims j i = 0 /\ fC ims j i = 0.
Proof.
  intros Hj Hi. unfold fC. destruct (Hu j Hj) as ((X & _) & _). destruct (bi_wf _ _ _ HI j Hj) as (Y & _). split; apply vget_out; lia.
Qed.

(** Columns which are not yet born stay unit vectors. *)
Lemma u_init j i : (j < n)%nat -> rho < b j -> cong p (fC uims j i) (funit j i).
Proof.
  intros Hj Hlt. assert (E2 : pv ims j = -2) by (apply (bi_unborn _ _ _ HI j Hj); auto).
  assert (Hi0 : forall i, cong p (fC ims j i) (funit j i)) by (intros i'; apply (bi_init _ _ _ HI j Hj E2)).
  destruct (lt_dec i n) as [Hi|Hi].
  2:{ destruct (u_out j i Hj ltac:(lia)) as [-> _]. unfold funit. destruct (Nat.eqb_spec i j); [lia|reflexivity]. }
  destruct (Hu j Hj) as (_ & _ & _ & _ & _ & X). rewrite X by auto.
  assert (Hdj : dyk j = false). { apply Z.eqb_neq. pose proof (Hbar j Hj). destruct (nb j Hj) as [[Y|Y] _]; lia. }
  rewrite Zsum_cong0.
  - rewrite Z.add_0_r. destruct (dyk i) eqn:Ei; [|apply Hi0]. unfold funit. destruct (Nat.eqb_spec i j) as [->|]; [congruence|reflexivity].
  - intros k Hk. destruct (dyk k) eqn:Ek; [|reflexivity]. rewrite Hi0. unfold funit. destruct (Nat.eqb_spec k j) as [->|]; [congruence|]. apply cong_eq; ring.
Qed.

Lemma born_pv j : (j < n)%nat -> b j <= rho -> pv ims j <> -2.
Proof. intros Hj H C. apply (bi_unborn _ _ _ HI j Hj) in C. lia. Qed.

(** Entries at living rows. *)
Lemma u_entry j i : (j < n)%nat -> b j <= rho -> al rad i = true ->
  cong p (fC uims j i) (on (al rho) (fC ims j) i + Zsum n (fun k => if dyk k then get E i k * fC ims j k else 0)).
Proof.
  intros Hj Hbj Hi. destruct (al_rad i Hi) as (H1 & H2 & H3). destruct (Hu j Hj) as (_ & _ & _ & _ & _ & X). rewrite X by auto. rewrite H2.
  apply cong_add; [|reflexivity]. unfold on. destruct (al rho i) eqn:Ei; [reflexivity|]. destruct H3 as [H3|H3]; [discriminate|].
  destruct (cong_dec p (fC ims j i) 0) as [|Y]; auto. apply (bi_supp _ _ _ HI j i Hj H1) in Y; [lia|]. apply born_pv; auto.
Qed.

Lemma u_supp j i : (j < n)%nat -> (i < n)%nat -> b j <= rad -> ~ cong p (fC uims j i) 0 -> b i <= rad.
Proof.
  intros Hj Hi Hbj Hn. pose proof Hrr as R. destruct (Z_le_gt_dec (b j) rho) as [Hle|Hgt].
  - destruct (Z_le_gt_dec (b i) rad) as [|Hbi]; auto. elim Hn. destruct (Hu j Hj) as (_ & _ & _ & _ & _ & X). rewrite X by auto.
    rewrite Zsum_cong0.
    + rewrite Z.add_0_r. destruct (dyk i); [reflexivity|]. destruct (cong_dec p (fC ims j i) 0) as [|Y]; auto.
      apply (bi_supp _ _ _ HI j i Hj Hi) in Y; [lia|]. apply born_pv; auto.
    + intros k Hk. destruct (dyk k) eqn:Ek; [|reflexivity]. apply Z.eqb_eq in Ek.
      destruct (cong_dec p (get E i k) 0) as [Y|Y]; [rewrite Y; apply cong_eq; ring|]. apply (HE i k Hi Hk) in Y. lia.
  - rewrite u_init in Hn by (auto; lia). unfold funit in Hn. destruct (Nat.eqb_spec i j) as [->|]; auto. elim Hn. reflexivity.
Qed.

Lemma sum_nz N (f : nat -> Z) : ~ cong p (Zsum N f) 0 -> exists k, (k < N)%nat /\ ~ cong p (f k) 0.
Proof.
  induction N as [|N IH]; cbn [Zsum]; intros H; [elim H; reflexivity|]. destruct (cong_dec p (f N) 0) as [X|X]; [|exists N; auto].
  destruct IH as (k & Hk & Y); [intros Y; apply H; rewrite Y, X; reflexivity|]. exists k. auto.
Qed.

Lemma u_rel j : (j < n)%nat -> b j <= rad -> rel rad (fun i => fT uims j i - on (al rad) (fC uims j) i).
Proof.
  intros Hj Hbj. pose proof Hrr as R. destruct (Z_le_gt_dec (b j) rho) as [Hle|Hgt].
  - set (v := fC ims j). set (Sm := fun i => Zsum n (fun k => if dyk k then get E i k * v k else 0)).
    set (dv := fun k => if dyk k then v k else 0). set (x := fun i => if al rad i then 0 else Sm i).
    apply (rel_cong rad (fun i => (fT ims j i - on (al rho) v i) + (lc n dv REL i + lc n x funit i))).
    + intros i. rewrite u_T by auto. cut (cong p (lc n dv REL i + lc n x funit i) (on (al rho) v i - on (al rad) (fC uims j) i)).
      { intros H. rewrite H. apply cong_eq; ring. }
      destruct (lt_dec i n) as [Hi|Hi].
      * rewrite lc_funit by auto.
        assert (HR : lc n dv REL i = dv i - Sm i).
        { unfold lc, REL. rewrite (Zsum_ext n _ (fun k => dv k * funit k i - dv k * get E i k)) by (intros; ring).
          rewrite Zsum_sub. change (Zsum n (fun l => dv l * funit l i)) with (lc n dv funit i). rewrite lc_funit by auto. f_equal.
          unfold Sm. apply Zsum_ext. intros k Hk. unfold dv. destruct (dyk k); ring. }
        rewrite HR. unfold x, on at 2. destruct (al rad i) eqn:Ei.
        -- rewrite (u_entry j i Hj Hle Ei). fold v. fold (Sm i). destruct (al_rad i Ei) as (_ & Hd & _). unfold dv. rewrite Hd. apply cong_eq; ring.
        -- assert (Hw : on (al rho) v i = dv i).
           { unfold on, dv. destruct (dyk i) eqn:Ed; [apply Z.eqb_eq in Ed; rewrite dy_alive by auto; reflexivity|].
             destruct (al rho i) eqn:Ea; auto. exfalso. assert (al rad i = true); [|congruence]. apply alive_iff in Ea. apply alive_iff.
             apply Z.eqb_neq in Ed. destruct (nb i Hi) as [_ [X|X]]; lia. }
           rewrite Hw. apply cong_eq; ring.
      * assert (Ho : forall r, al r i = false) by (intros r; destruct (al r i) eqn:X; auto; apply alive_iff in X; lia).
        unfold on. rewrite !Ho. rewrite !lc_cong0; [reflexivity| |].
        -- intros k Hk. unfold funit. destruct (Nat.eqb_spec i k); [lia|]. apply cong_eq; ring.
        -- intros k Hk. unfold REL, funit. destruct (Nat.eqb_spec i k); [lia|]. unfold get. rewrite vget_out; [apply cong_eq; ring|].
           destruct (lt_dec k (ncols E)) as [Hk'|Hk']; [rewrite wf_col; auto; lia|].
           unfold col. rewrite nth_overflow; [cbn; lia|]. unfold ncols in Hk'. unfold vec in *. lia.
    + apply rel_add; [|apply rel_add].
      * apply (rel_mono rho); [lia|]. apply (bi_rel _ _ _ HI j Hj). apply born_pv; auto.
      * apply rel_lc. intros k Hk. unfold dv. destruct (dyk k) eqn:Ed; [|left; reflexivity]. right. apply rel_gen; auto. apply Z.eqb_eq in Ed. lia.
      * apply rel_lc. intros i Hi. unfold x. destruct (al rad i) eqn:Ei; [left; reflexivity|].
        destruct (cong_dec p (Sm i) 0) as [|Hn]; auto. right. unfold Sm in Hn. apply sum_nz in Hn. destruct Hn as (k & Hk & Hn).
        destruct (dyk k) eqn:Ed; [|elim Hn; reflexivity]. apply Z.eqb_eq in Ed.
        assert (Hg : ~ cong p (get E i k) 0) by (intros C; apply Hn; rewrite C; apply cong_eq; ring).
        destruct (HE i k Hi Hk Hg) as [X1 X2]. apply rel_dead; auto. destruct (Z_le_gt_dec (d i) rad); auto.
        assert (al rad i = true); [|congruence]. apply alive_iff. lia.
  - apply rel_zero. intros i. rewrite u_T by auto. assert (E2 : pv ims j = -2) by (apply (bi_unborn _ _ _ HI j Hj); lia).
    destruct (bi_init _ _ _ HI j Hj E2 i) as [_ ->]. unfold on. destruct (al rad i) eqn:Ei.
    + rewrite u_init by (auto; lia). apply cong_eq; ring.
    + unfold funit. destruct (Nat.eqb_spec i j) as [->|]; [|reflexivity]. assert (al rad j = true); [|congruence].
      apply alive_iff. pose proof (Hbar j Hj). destruct (nb j Hj) as [[X|X] _]; lia.
Qed.

Lemma u_dead j : (j < n)%nat -> pv ims j = -1 -> zon p (al rad) (fC uims j).
Proof.
  intros Hj H1. destruct (bi_dead _ _ _ HI j Hj H1) as [Hz Hd]. apply zon_intro. intros i Hi. rewrite (u_entry j i Hj) by (auto; lia).
  rewrite Zsum_cong0.
  - specialize (Hz i). rewrite Hz. reflexivity.
  - intros k Hk. destruct (dyk k) eqn:Ed; [|reflexivity]. apply Z.eqb_eq in Ed. rewrite (zon_at p _ _ k Hz); [apply cong_eq; ring|]. apply dy_alive; auto.
Qed.

Lemma u_own q : al rad q = true -> extb q = true ->
    (forall j, (j < n)%nat -> j <> q -> cong p (fC uims j q) 0) /\ (forall i, al rad i = true -> i <> q -> cong p (fC uims q i) 0) /\
    ~ cong p (fC uims q q) 0.
Proof.
  intros Hq Hx. destruct (al_rad q Hq) as (Hqn & Hqd & Hqa).
  assert (Hrow : forall j, (j < n)%nat -> cong p (fC uims j q) (fC ims j q)).
  { intros j Hj. destruct (Hu j Hj) as (_ & _ & _ & _ & _ & X). rewrite X by auto. rewrite Hqd. rewrite Zsum_cong0; [apply cong_eq; ring|].
    intros k Hk. destruct (dyk k); [|reflexivity]. rewrite (extb_row q k); auto. apply cong_eq; ring. }
  destruct Hqa as [Hqa|Hqa].
  - destruct (bi_own _ _ _ HI q Hqa Hx) as (O1 & O2 & O3).
    assert (Hbq : b q <= rho) by (apply alive_iff in Hqa; lia).
    split; [|split].
    + intros j Hj Hjq. rewrite Hrow by auto. auto.
    + intros i Hi Hiq. rewrite (u_entry q i) by auto. rewrite Zsum_cong0.
      * unfold on. destruct (al rho i) eqn:Ei; [|reflexivity]. rewrite O2; auto. reflexivity.
      * intros k Hk. destruct (dyk k) eqn:Ed; [|reflexivity]. rewrite O2; [apply cong_eq; ring| |].
        -- apply dy_alive; auto. apply Z.eqb_eq; auto.
        -- intros ->. congruence.
    + rewrite Hrow by auto. auto.
  - split; [|split].
    + intros j Hj Hjq. destruct (Z_le_gt_dec (b j) rho) as [Hle|Hgt].
      * rewrite Hrow by auto. destruct (cong_dec p (fC ims j q) 0) as [|Y]; auto. apply (bi_supp _ _ _ HI j q Hj Hqn) in Y; [lia|]. apply born_pv; auto.
      * rewrite u_init by (auto; lia). unfold funit. destruct (Nat.eqb_spec q j); [lia|reflexivity].
    + intros i _ Hiq. rewrite u_init by auto. unfold funit. destruct (Nat.eqb_spec i q); [lia|reflexivity].
    + rewrite u_init by auto. unfold funit. rewrite Nat.eqb_refl. rewrite cong0_divide. intros X. pose proof pp. apply Z.divide_pos_le in X; lia.
Qed.

Lemma own_pv q : al rho q = true -> extb q = true -> pv ims q = Z.of_nat q.
Proof.
  intros Hq Hx. destruct (bi_own _ _ _ HI q Hq Hx) as (O1 & O2 & O3). assert (Hqn : (q < n)%nat) by (apply alive_iff in Hq; tauto).
  destruct (bi_range _ _ _ HI q Hqn) as [X|[X|X]].
  - apply (bi_unborn _ _ _ HI q Hqn) in X. apply alive_iff in Hq. lia.
  - destruct (bi_dead _ _ _ HI q Hqn X) as [Hz _]. elim O3. apply (zon_at p _ _ q Hz); auto.
  - destruct (bi_piv _ _ _ HI q Hqn X) as [P1 _]. apply on_nz in P1. destruct P1 as [P1 P2].
    destruct (Nat.eq_dec (Z.to_nat (pv ims q)) q) as [Y|Y]; [lia|]. elim P2. apply O2; auto.
Qed.

Lemma u_stay j : (j < n)%nat -> 0 <= pv uims j -> ~ In (Z.to_nat (pv uims j)) dyB ->
  ~ cong p (fC uims j (Z.to_nat (pv uims j))) 0 -> is_piv p (on (al rad) (fC uims j)) (Z.to_nat (pv uims j)).
Proof.
  intros Hj H0 Hd Hn. destruct (Hu j Hj) as (_ & _ & _ & Hpv & _). destruct (bhit j) eqn:Eh; [lia|]. rewrite Hpv in *. clear Hpv.
  set (q := Z.to_nat (pv ims j)) in *. destruct (bi_piv _ _ _ HI j Hj H0) as [P1 P2]. fold q in P1, P2. pose proof P1 as P0. apply on_nz in P0. destruct P0 as [Hq Hqn].
  assert (Hqlt : (q < n)%nat) by (apply alive_iff in Hq; tauto).
  assert (Hbj : b j <= rho). { destruct (Z_le_gt_dec (b j) rho); auto. assert (Y : rho < b j) by lia. apply (bi_unborn _ _ _ HI j Hj) in Y. lia. }
  assert (Hqd : d q <> rad) by (intros C; apply Hd, HdyB; auto).
  assert (Hq' : al rad q = true). { apply alive_iff in Hq. apply alive_iff. pose proof Hrr. destruct (nb q Hqlt) as [_ [X|X]]; lia. }
  split; [unfold on; rewrite Hq'; auto|]. intros i Hi. unfold on. destruct (al rad i) eqn:Ei; [|reflexivity].
  rewrite (u_entry j i) by auto. rewrite (P2 i Hi). rewrite Zsum_cong0; [reflexivity|]. intros k Hk. destruct (dyk k) eqn:Ed; [|reflexivity].
  apply Z.eqb_eq in Ed. destruct (cong_dec p (get E i k) 0) as [X|X]; [rewrite X; apply cong_eq; ring|].
  pose proof (dy_alive k Hk Ed) as Hka. assert (Hkx : extb k = true). { apply extb_iff. exists i. split; auto. apply alive_iff in Ei. tauto. }
  destruct (bi_own _ _ _ HI k Hka Hkx) as (O1 & _). destruct (Nat.eq_dec j k) as [->|Hjk]; [|rewrite O1 by auto; apply cong_eq; ring].
  exfalso. apply Hqd. unfold q. rewrite (own_pv k Hka Hkx), Nat2Z.id. auto.
Qed.

Lemma count_le l : (count_alive l <= length l)%nat.
Proof. unfold count_alive. induction l as [|c l IH]; cbn; [lia|]. destruct (negb _); cbn; lia. Qed.

Lemma past_ext (i1 i2 : list icol) r : (forall j, (j < n)%nat -> okr i1 r j = okr i2 r j) -> past i1 r -> past i2 r.
Proof.
  intros H [(T & T1 & T2 & T3)]. constructor. exists T. split; auto. split.
  - intros j Hj Hr Ho. apply T2; auto. rewrite H; auto.
  - intros c Hc. apply T3. intros j Hj Hn. rewrite H; auto.
Qed.

Lemma br_phase : exists ims2 newp, foldM (im_step F actB dyA birA dyB rad p 0 n true) uims ([], [], []) = Ok (ims2, newp, []) /\
  BInv (done ++ [rad]) rad ims2.
Proof.
  pose proof Hrr as R. pose proof pp as H2.
  assert (Hlt : forall i, In i actB -> (i < n)%nat).
  { intros i Hi. apply memn_In in Hi. change (mem actB i = true) in Hi. rewrite HactB' in Hi. apply alive_iff in Hi. tauto. }
  assert (Hpiv : forall v q, is_piv p (on (mem actB) v) q <-> is_piv p (on (al rad) v) q).
  { intros v q. split; intros H; apply (is_piv_veq p) with (2 := H); intros i; rewrite (on_ext _ _ v i HactB'); reflexivity. }
  assert (Hhit : forall j, (j < n)%nat -> bhit j = true -> M = rad /\ b j <= rho /\ pv ims j <> -1 /\ forall i, al rad i = false).
  { intros j Hj H. unfold bhit in H. apply andb_true_iff in H. destruct H as [H1 H3]. apply Z.eqb_eq in H1. apply negb_true_iff, Z.eqb_neq in H3.
    split; auto. split; [pose proof (Hbar j Hj); destruct (nb j Hj) as [[X|X] _]; lia|]. split; auto.
    intros i. destruct (al rad i) eqn:X; auto. apply alive_iff in X. destruct X as (X1 & X2 & X3). pose proof (Hbar i X1). lia. }
  assert (Hborn : forall j, (j < n)%nat -> pv ims j <> -2 -> b j <= rho).
  { intros j Hj H. destruct (Z_le_gt_dec (b j) rho); auto. elim H. apply (bi_unborn _ _ _ HI j Hj). lia. }
  assert (Hu2 : forall j, (j < n)%nat -> pv uims j = -2 <-> pv ims j = -2).
  { intros j Hj. destruct (Hu j Hj) as (_ & _ & _ & X & _). rewrite X. destruct (bhit j) eqn:Eh; [|tauto].
    destruct (Hhit j Hj Eh) as (_ & Y & _). pose proof (born_pv j Hj Y). split; [lia|tauto]. }
  destruct (im_phase p F actB (seq 0 n) birA dyB rad 0 n Hp HF HactB) with (ims := uims) (ker := [] : list kcol) as (ims2 & newp & ker2 & Ef & L2 & G & _); auto.
  { intros i Hi. rewrite Hsq. auto. }
  { intros j Hj. apply Hu; auto. }
  { intros j Hj X1 X2 X3. unfold pB. apply Hpiv. apply u_stay; auto. }
  { intros i j Hi Hj Hij. destruct (Hu i Hi) as (_ & _ & _ & -> & _). destruct (Hu j Hj) as (_ & _ & _ & -> & _).
    destruct (bhit i) eqn:Ehi; [lia|]. intros H0. destruct (bhit j); [lia|]. apply (bi_dist _ _ _ HI); auto. }
  { intros j Hj Hb'. apply Hu2; auto. apply (bi_unborn _ _ _ HI j Hj). apply HbirA in Hb'. lia. }
  { intros j Hj. destruct (Hu j Hj) as (_ & _ & _ & -> & _). destruct (bhit j); auto. apply (bi_range _ _ _ HI); auto. }
  { cbn [length]. rewrite <- HuL. apply count_le. }
  assert (Hker : ker2 = []).
  { destruct (g_ker _ _ _ _ _ _ _ _ _ _ _ _ G) as (js & -> & _ & Hjs). destruct js as [|j js]; [reflexivity|]. exfalso.
    destruct (proj1 (Hjs j) (or_introl eq_refl)) as (X1 & _ & _ & _ & X2). apply X2. apply in_seq. lia. }
  subst ker2. exists ims2, newp.
  assert (Ef' : foldM (im_step F actB dyA birA dyB rad p 0 n true) uims ([], [], []) = Ok (ims2, newp, [])).
  { rewrite (im_fold_broken F actB dyA birA dyB rad p n n uims) by (cbn; lia). auto. }
  split; auto.
  set (Q := fun q => (al rad q && extb q)%bool).
  assert (HO : owned p n uims Q ims2).
  { change ims2 with (fst (fst (ims2, newp, [] : list kcol))). apply (owned_fold p n actB birA dyB rad uims Q Hp HactB Hlt) with (F := F) (dy := dyA) (cap := n) (br := true) (todo := uims) (st := ([], [], [])); auto.
    - intros q Hq. unfold Q in Hq. apply andb_true_iff in Hq. destruct Hq as [Hq _]. rewrite <- HactB' in Hq. apply memn_In in Hq. auto.
    - intros j Hj. destruct (Hu j Hj) as ((X & _) & _). lia.
    - intros q Hq. unfold Q in Hq. apply andb_true_iff in Hq. destruct Hq as [Hq Hx]. destruct (u_own q Hq Hx) as (O1 & O2 & O3). split; [auto|]. split.
      + intros i Hi Hn. apply O2; auto. rewrite <- HactB'. apply memn_In. auto.
      + split; auto. destruct (al_rad q Hq) as (Hqn & _ & Hqa). destruct (Hu q Hqn) as (_ & _ & _ & -> & _).
        destruct (bhit q) eqn:Eh; [destruct (Hhit q Hqn Eh) as (_ & _ & _ & Y); rewrite Y in Hq; discriminate|].
        destruct Hqa as [Hqa|Hqa]; [left; apply own_pv; auto|right]. split; [apply (bi_unborn _ _ _ HI q Hqn); auto|]. apply HbirA. split; auto.
        apply alive_iff in Hq. destruct (nb q Hqn) as [[Y|Y] _]; lia.
    - intros j q Hj HQj HQq. unfold Q in *. apply andb_true_iff in HQq. destruct HQq as [Hq Hx]. destruct (Hu j Hj) as (_ & _ & _ & -> & _).
      destruct (bhit j); [lia|]. intros C. destruct (bi_range _ _ _ HI j Hj) as [X|[X|X]]; try lia. destruct (bi_piv _ _ _ HI j Hj X) as [P1 _].
      rewrite C, Nat2Z.id in P1. apply on_nz in P1. destruct P1 as [P1 P2]. destruct (bi_own _ _ _ HI q P1 Hx) as (O1 & _).
      destruct (Nat.eq_dec j q) as [->|Hjq]; [rewrite Hq, Hx in HQj; discriminate|]. apply P2. apply O1; auto.
    - intros j Hj. cbn in Hj. lia. }
  (* the columns *)
  assert (HC : forall j, (j < n)%nat -> exists bl, (forall i, bl i <> 0 -> (i < j)%nat /\ 0 <= pv ims2 i) /\
     (forall i, cong p (fC ims2 j i) (fC uims j i + lc j bl (fC ims2) i)) /\ (forall i, cong p (fT ims2 j i) (fT uims j i + lc j bl (fT ims2) i))).
  { intros j Hj. destruct (g_cols _ _ _ _ _ _ _ _ _ _ _ _ G j ltac:(lia)) as (pre & pret & [W Bi (bl & B1 & B2 & B3) Cs]). exists bl. split; auto.
    assert (X : (forall i, pre i = fC ims2 j i) /\ (forall i, pret i = fT ims2 j i)).
    { destruct Cs as [Cs|[Cs|Cs]]; [tauto|tauto|]. apply Cs. reflexivity. }
    destruct X as [X1 X2]. split; intros i; [rewrite <- X1; apply B2|rewrite <- X2; apply B3]. }
  assert (HS : forall j, (j < n)%nat -> (0 <= pv ims2 j /\ is_piv p (on (al rad) (fC ims2 j)) (Z.to_nat (pv ims2 j)) /\ pv ims j <> -1 /\ b j <= rad) \/
    (pv ims2 j = -2 /\ nth j ims2 dI = nth j uims dI /\ rad < b j) \/
    (pv ims2 j = -1 /\ zon p (al rad) (fC ims2 j) /\ b j <= ic_death (nth j ims2 dI) <= rad /\
       (pv ims j = -1 /\ ic_death (nth j ims2 dI) = ic_death (nth j ims dI) \/ pv ims j <> -1 /\ ic_death (nth j ims2 dI) = rad))).
  { intros j Hj. destruct (g_cols _ _ _ _ _ _ _ _ _ _ _ _ G j ltac:(lia)) as (pre & pret & [W Bi _ Cs]).
    destruct (Hu j Hj) as (_ & _ & _ & Up & Ud & _). rewrite Up in Cs.
    assert (Hbr : pv uims j = -2 -> In j birA -> b j <= rad) by (intros _ X; apply HbirA in X; lia).
    assert (Hbb : pv uims j <> -2 -> b j <= rho) by (intros X; apply Hborn; auto; intros C; apply X, Hu2; auto).
    rewrite Up in Hbr, Hbb.
    destruct Cs as [(C1 & C2 & C3 & C4 & C5 & C6 & C7)|[(C1 & C2 & C3 & C4)|(C1 & C2 & C3 & C4 & C5 & C6 & C7)]].
    - left. split; auto. split; [apply Hpiv; auto|]. destruct (bhit j) eqn:Eh; [lia|]. split; auto.
      destruct (Z.eq_dec (pv ims j) (-2)) as [X|X]; [apply Hbr; auto|specialize (Hbb X); lia].
    - right. assert (Epv : pv ims2 j = pv uims j) by (unfold pv; rewrite C1; auto). rewrite Epv, Up.
      destruct C2 as [C2|[C2 C2']].
      + right. split; auto. rewrite C1. destruct (bhit j) eqn:Eh.
        * destruct (Hhit j Hj Eh) as (Y1 & Y2 & Y3 & Y4). split; [apply zon_intro; intros i Hi; rewrite Y4 in Hi; discriminate|]. rewrite Ud. split; [lia|]. right. auto.
        * split.
          -- assert (Z0 : zon p (al rad) (fC uims j)) by (apply u_dead; auto). unfold fC in *. rewrite C1. exact Z0.
          -- rewrite Ud. destruct (bi_dead _ _ _ HI j Hj C2) as [_ Y]. split; [lia|]. left. auto.
      + left. split; auto. split; auto. destruct (bhit j) eqn:Eh; [lia|]. apply (bi_unborn _ _ _ HI j Hj) in C2.
        assert (b j <> rad) by (intros C; apply C2', HbirA; auto). destruct (nb j Hj) as [[Y|Y] _]; lia.
    - right. right. split; auto. destruct (bhit j) eqn:Eh; [lia|]. split.
      + destruct C6 as [C6 _]; [reflexivity|]. apply zon_intro. intros i Hi. rewrite <- C6. specialize (C5 i). unfold on in C5. rewrite HactB', Hi in C5. exact C5.
      + rewrite C4. split; [|right; auto]. split; [|lia]. destruct (Z.eq_dec (pv ims j) (-2)) as [X|X]; [apply Hbr; auto|specialize (Hbb X); lia]. }
  assert (Htri : forall j, (j < n)%nat -> tri p j (fT ims2 j)).
  { intros j. induction j as [j IH] using lt_wf_ind. intros Hj. destruct (HC j Hj) as (bl & B1 & _ & B3).
    apply (tri_cong p j (fun i => fT uims j i + lc j bl (fT ims2) i)); [intros i; symmetry; apply B3|].
    apply tri_comb.
    - apply (tri_cong p j (fT ims j)); [intros i; rewrite u_T by auto; reflexivity|]. apply (bi_tri _ _ _ HI); auto.
    - intros l Hl _. split; auto. apply IH; auto. lia. }
  assert (Hsupp : forall j, (j < n)%nat -> pv ims2 j <> -2 -> forall i, (i < n)%nat -> ~ cong p (fC ims2 j i) 0 -> b i <= rad).
  { intros j. induction j as [j IH] using lt_wf_ind. intros Hj Hp2 i Hi Hn. destruct (HC j Hj) as (bl & B1 & B2 & _).
    destruct (Z_le_gt_dec (b i) rad) as [|Hgt]; auto. elim Hn. rewrite B2.
    assert (Hbj : b j <= rad) by (destruct (HS j Hj) as [X|[X|X]]; [tauto|tauto|lia]).
    rewrite (lc_cong0 p j bl (fC ims2) i).
    - destruct (cong_dec p (fC uims j i) 0) as [X|X]; [rewrite X; reflexivity|]. apply (u_supp j i Hj Hi Hbj) in X. lia.
    - intros l Hl. destruct (Z.eq_dec (bl l) 0) as [X|X]; [rewrite X; apply cong_eq; ring|]. destruct (B1 l X) as [_ Y].
      destruct (cong_dec p (fC ims2 l i) 0) as [Z0|Z0]; [rewrite Z0; apply cong_eq; ring|]. apply IH in Z0; auto; lia. }
  assert (Hrel : forall j, (j < n)%nat -> pv ims2 j <> -2 -> rel rad (fun i => fT ims2 j i - on (al rad) (fC ims2 j) i)).
  { intros j. induction j as [j IH] using lt_wf_ind. intros Hj Hp2. destruct (HC j Hj) as (bl & B1 & B2 & B3).
    assert (Hbj : b j <= rad) by (destruct (HS j Hj) as [X|[X|X]]; [tauto|tauto|lia]).
    apply (rel_cong rad (fun i => (fT uims j i - on (al rad) (fC uims j) i) + lc j bl (fun l i => fT ims2 l i - on (al rad) (fC ims2 l) i) i)).
    - intros i. rewrite B3. assert (X : cong p (on (al rad) (fC ims2 j) i) (on (al rad) (fC uims j) i + lc j bl (fun l => on (al rad) (fC ims2 l)) i)).
      { rewrite <- on_lc. rewrite <- on_add. unfold on. destruct (al rad i); [apply B2|reflexivity]. }
      rewrite X. assert (Y : lc j bl (fun l i0 => fT ims2 l i0 - on (al rad) (fC ims2 l) i0) i = lc j bl (fT ims2) i - lc j bl (fun l => on (al rad) (fC ims2 l)) i).
      { unfold lc. rewrite <- Zsum_sub. apply Zsum_ext. intros; ring. }
      rewrite Y. apply cong_eq; ring.
    - apply rel_add; [apply u_rel; auto|]. apply rel_lc. intros l Hl. destruct (Z.eq_dec (bl l) 0) as [X|X]; [left; rewrite X; reflexivity|right].
      destruct (B1 l X) as [_ Y]. apply IH; lia. }
  assert (Hdist : forall i j, (i < n)%nat -> (j < n)%nat -> i <> j -> 0 <= pv ims2 i -> pv ims2 i <> pv ims2 j).
  { intros i j Hi Hj. apply (g_dist _ _ _ _ _ _ _ _ _ _ _ _ G); lia. }
  constructor; auto.
  - intros j Hj. destruct (g_cols _ _ _ _ _ _ _ _ _ _ _ _ G j ltac:(lia)) as (pre & pret & [W _ _ _]). auto.
  - intros j Hj. destruct (g_cols _ _ _ _ _ _ _ _ _ _ _ _ G j ltac:(lia)) as (pre & pret & [_ W _ _]). rewrite W. apply Hu; auto.
  - intros j Hj. destruct (HS j Hj) as [X|[X|X]]; tauto.
  - intros j Hj. destruct (HS j Hj) as [X|[X|X]]; lia.
  - intros j Hj H i. destruct (HS j Hj) as [X|[(X1 & X2 & X3)|X]]; try lia. unfold fC, fT. rewrite X2. fold (fC uims j) (fT uims j).
    split; [apply u_init; auto; lia|]. rewrite u_T by auto. apply (bi_init _ _ _ HI j Hj). apply (bi_unborn _ _ _ HI j Hj). lia.
  - intros j i Hj Hi H1 H3. apply (Hsupp j Hj H1 i Hi H3).
  - intros j Hj H. destruct (HS j Hj) as [X|[X|X]]; try lia. tauto.
  - intros j Hj H. destruct (HS j Hj) as [X|[X|X]]; try lia. tauto.
  - intros q Hq Hx. assert (HQ : Q q = true) by (unfold Q; rewrite Hq, Hx; auto). destruct (u_own q Hq Hx) as (O1 & O2 & O3).
    assert (Hqn : (q < n)%nat) by (apply alive_iff in Hq; tauto).
    destruct (HO q ltac:(lia)) as (_ & P1 & _). destruct (P1 HQ) as [Ec _]. unfold fC at 2 3. rewrite Ec. fold (fC uims q).
    split; [|auto]. intros j Hj Hjq. destruct (HO j ltac:(lia)) as (_ & P2 & P3). destruct (Q j) eqn:EQ.
    + destruct (P2 eq_refl) as [Ec2 _]. unfold fC. rewrite Ec2. apply O1; auto.
    + apply P3; auto.
  - intros r Hr. apply in_app_or in Hr. destruct Hr as [Hr|[<-|[]]].
    + apply (past_ext ims); [|apply (bi_past _ _ _ HI); auto]. intros j Hj. unfold okr. assert (Hle : r <= rho) by (apply Hnext; auto).
      destruct (b j <=? r) eqn:Eb; [cbn [andb]|reflexivity]. apply Z.leb_le in Eb.
      destruct (HS j Hj) as [X|[X|X]]; [|lia|].
      * destruct (Z.eqb_spec (pv ims j) (-1)); [lia|]. destruct (Z.eqb_spec (pv ims2 j) (-1)); [lia|]. reflexivity.
      * destruct X as (X1 & _ & _ & [[X2 X3]|[X2 X3]]).
        -- rewrite X1, X2, X3. reflexivity.
        -- rewrite X1, X3. destruct (Z.eqb_spec (pv ims j) (-1)); [lia|]. cbn. symmetry. apply Z.ltb_lt. lia.
    + constructor. exists (fT ims2).
      assert (Hok : forall j, (j < n)%nat -> b j <= rad -> (okr ims2 rad j = true <-> 0 <= pv ims2 j)).
      { intros j Hj Hb'. unfold okr. rewrite andb_true_iff, orb_true_iff, negb_true_iff, Z.eqb_neq, Z.leb_le, Z.ltb_lt.
        destruct (HS j Hj) as [X|[X|X]]; lia. }
      split; auto. split.
      * intros j Hj Hb' Ho. destruct (HS j Hj) as [X|[X|X]]; [|lia|].
        -- assert (okr ims2 rad j = true); [apply Hok; tauto|congruence].
        -- destruct X as (X1 & X2 & _). apply (rel_cong rad (fun i => fT ims2 j i - on (al rad) (fC ims2 j) i)); [|apply Hrel; auto; lia].
           intros i. rewrite (X2 i). apply cong_eq. unfold fzero. ring.
      * intros c Hc HR.
        assert (Hcp : forall j, (j < n)%nat -> ~ cong p (c j) 0 -> 0 <= pv ims2 j).
        { intros j Hj Hn. specialize (Hc j Hj Hn). apply Hok; auto. unfold okr in Hc. apply andb_true_iff in Hc. destruct Hc as [Hc _]. apply Z.leb_le; auto. }
        assert (HZ : forall i, cong p (lc n c (fun l => on (al rad) (fC ims2 l)) i) 0).
        { apply (rel_normal rad).
          - apply (rel_cong rad (fun i => lc n c (fT ims2) i - lc n c (fun l i => fT ims2 l i - on (al rad) (fC ims2 l) i) i)).
            + intros i. unfold lc. rewrite <- Zsum_sub. apply cong_eq. apply Zsum_ext. intros; ring.
            + apply rel_sub; auto. apply rel_lc. intros l Hl. destruct (cong_dec p (c l) 0) as [X|X]; auto. right. apply Hrel; auto. specialize (Hcp l Hl X). lia.
          - intros i Hi Ha. rewrite <- on_lc. unfold on. rewrite Ha. reflexivity. }
        apply (piv_indep p Hp n (fun l => on (al rad) (fC ims2 l)) (fun l => Z.to_nat (pv ims2 l)) c).
        -- intros k Hk Hn. specialize (Hcp k Hk Hn). destruct (HS k Hk) as [X|[X|X]]; try lia. tauto.
        -- intros k l Hk Hl Hnk Hnl He. destruct (Nat.eq_dec k l) as [|Hkl]; auto. pose proof (Hcp k Hk Hnk). pose proof (Hcp l Hl Hnl).
           elim (Hdist k l Hk Hl Hkl); lia.
        -- exact HZ.
Qed.
End Phase.
End Step.
End Br.
