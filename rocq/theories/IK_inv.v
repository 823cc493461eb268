(** * Invariants of the main loop of [image_kernel] (absolute case) *)
From Verif Require Import Base ListX SortX Lin Gauss_model Gauss_arith Gauss_col Basis_model PH_model IK_model IK_pivot IK_lin IK_phase IK_kphase.
From Coq Require Import Znumtheory Sorting.Sorted.
Local Open Scope Z_scope.

Definition alive (n : nat) (b d : nat -> Z) (r : Z) (i : nat) : bool := (Nat.ltb i n && (b i <=? r) && (r <? d i))%bool.

Lemma alive_iff n b d r i : alive n b d r i = true <-> (i < n)%nat /\ b i <= r /\ r < d i.
Proof.
  unfold alive. rewrite !andb_true_iff, Nat.ltb_lt, Z.leb_le, Z.ltb_lt. tauto.
Qed.

Lemma nth_map_in {A B} (f : A -> B) l k d d' : (k < length l)%nat -> nth k (map f l) d' = f (nth k l d).
Proof. intros H. apply nth_map; auto. Qed.

Section Inv.
Variables (p : Z) (F : mat) (bA dA bB dB : nat -> Z).
Let m := nrows F.
Let n := ncols F.
Hypothesis Hp : prime p.
Hypothesis HF : wf_mat F.
Hypothesis HbarA : forall i, (i < n)%nat -> bA i < dA i.
Hypothesis Hsort : forall i j, (i <= j)%nat -> (j < n)%nat -> bA i <= bA j.
Hypothesis Hmor : forall j i, (j < n)%nat -> (i < m)%nat -> ~ cong p (fF F j i) 0 -> bB i <= bA j /\ dB i <= dA j.

Notation alA := (alive n bA dA).
Notation alB := (alive m bB dB).
Notation C := fC (only parsing).

Lemma alA_lt r i : alA r i = true -> (i < n)%nat.
Proof. rewrite alive_iff. tauto. Qed.
Lemma alB_lt r i : alB r i = true -> (i < m)%nat.
Proof. rewrite alive_iff. tauto. Qed.

(** ** Persistence of zero *)
Lemma zB_persist (v : fvec) r0 r r' : (forall i, (i < m)%nat -> ~ cong p (v i) 0 -> bB i <= r0) -> r0 <= r -> r <= r' ->
  zon p (alB r) v -> zon p (alB r') v.
Proof.
  intros Hs H1 H2 Hz. apply zon_intro. intros i Hi. apply alive_iff in Hi. destruct Hi as (Hi & Hb & Hd).
  destruct (cong_dec p (v i) 0) as [|E]; auto. apply (zon_at p (alB r)); auto. apply alive_iff. specialize (Hs i Hi E). lia.
Qed.

Lemma zA_persist (v : fvec) r0 r r' : (forall i, ~ cong p (v i) 0 -> (i < n)%nat /\ bA i <= r0) -> r0 <= r -> r <= r' ->
  zon p (alA r) v -> zon p (alA r') v.
Proof.
  intros Hs H1 H2 Hz. apply zon_intro. intros i Hi. apply alive_iff in Hi. destruct Hi as (Hi & Hb & Hd).
  destruct (cong_dec p (v i) 0) as [|E]; auto. apply (zon_at p (alA r)); auto. apply alive_iff. specialize (Hs i E). lia.
Qed.

(** images of dead generators vanish *)
Lemma dead_image r j : (j < n)%nat -> dA j <= r -> zon p (alB r) (fF F j).
Proof.
  intros Hj Hd. apply zon_intro. intros i Hi. apply alive_iff in Hi. destruct Hi as (Hi & Hb & Hd').
  destruct (cong_dec p (fF F j i) 0) as [|E]; auto. destruct (Hmor j i Hj Hi E). lia.
Qed.

(** restriction to the alive generators does not change the image *)
Lemma restrict_image r (v : fvec) : (forall i, (i < n)%nat -> ~ cong p (v i) 0 -> bA i <= r) ->
  forall i, alB r i = true -> cong p (lc n (on (alA r) v) (fF F) i) (lc n v (fF F) i).
Proof.
  intros Hs i Hi. unfold lc. apply Zsum_cong. intros k Hk. unfold on. destruct (alA r k) eqn:E; [reflexivity|].
  destruct (cong_dec p (v k) 0) as [E'|E']; [rewrite E'; apply cong_eq; ring|].
  rewrite (zon_at p (alB r) _ i (dead_image r k Hk ltac:(
    specialize (Hs k Hk E'); destruct (Z_lt_le_dec r (dA k)); auto; assert (alA r k = true) by (apply alive_iff; lia); congruence)) Hi).
  apply cong_eq; ring.
Qed.

Lemma image_support (v : fvec) r : (forall i, (i < n)%nat -> ~ cong p (v i) 0 -> bA i <= r) ->
  forall i, (i < m)%nat -> ~ cong p (lc n v (fF F) i) 0 -> bB i <= r.
Proof.
  intros Hs i Hi Hn. destruct (Z_le_gt_dec (bB i) r); auto. elim Hn. apply lc_cong0. intros k Hk.
  destruct (cong_dec p (v k) 0) as [E|E]; [rewrite E; apply cong_eq; ring|].
  destruct (cong_dec p (fF F k i) 0) as [E'|E']; [rewrite E'; apply cong_eq; ring|].
  destruct (Hmor k i Hk Hi E'). specialize (Hs k Hk E). lia.
Qed.

Lemma ker_persist (v : fvec) r r' : (forall i, (i < n)%nat -> ~ cong p (v i) 0 -> bA i <= r) -> r <= r' ->
  zon p (alB r) (lc n (on (alA r) v) (fF F)) -> zon p (alB r') (lc n (on (alA r') v) (fF F)).
Proof.
  intros Hs Hr Hz.
  assert (Hz' : zon p (alB r) (lc n v (fF F))).
  { apply (zon_cong p (alB r) (lc n (on (alA r) v) (fF F))); auto. apply restrict_image; auto. }
  apply (zon_cong p (alB r') (lc n v (fF F))).
  - intros i Hi. symmetry. apply restrict_image; auto. intros k Hk E. specialize (Hs k Hk E). lia.
  - apply (zB_persist _ r r r'); auto; [|lia]. apply image_support; auto.
Qed.

(** ** The invariants *)
(** No generator of [A] dies while [j] is alive. *)
Definition calm (j : nat) : Prop := forall i, (i < n)%nat -> dA i < bA j \/ dA j <= dA i.

Record ImInv (done : list Z) (rho rad : Z) (ims : list icol) : Prop := {
  ii_len : length ims = n;
  ii_wf : forall j, (j < n)%nat -> wf_ic F (nth j ims dI);
  ii_birth : forall j, (j < n)%nat -> ic_birth (nth j ims dI) = bA j;
  ii_range : forall j, (j < n)%nat -> pv ims j = -2 \/ pv ims j = -1 \/ 0 <= pv ims j;
  ii_unborn : forall j, (j < n)%nat -> (pv ims j = -2 <-> rho < bA j);
  ii_U : exists U, forall j, (j < n)%nat -> tri p j (U j) /\ forall i, cong p (fC ims j i) (lc n (U j) (fF F) i);
  ii_T : forall j, (j < n)%nat -> tri p j (fT ims j);
  ii_FT : forall j, (j < n)%nat -> pv ims j <> -1 -> forall i, cong p (fC ims j i) (lc n (fT ims j) (fF F) i);
  ii_piv : forall j, (j < n)%nat -> 0 <= pv ims j -> is_piv p (on (alB rho) (fC ims j)) (Z.to_nat (pv ims j));
  ii_dist : forall i j, (i < n)%nat -> (j < n)%nat -> i <> j -> 0 <= pv ims i -> pv ims i <> pv ims j;
  ii_zero : forall j, (j < n)%nat -> pv ims j = -1 -> zon p (alB rad) (fC ims j);
  ii_alive : forall j, (j < n)%nat -> 0 <= pv ims j -> rho < dA j;
  ii_past : forall r, In r done -> indep p (alB r) n (fC ims) (fun j => bA j <=? r);
  ii_death : forall j r, (j < n)%nat -> pv ims j = -1 -> In r done -> bA j <= r -> ~ zon p (alB r) (fC ims j) -> r < ic_death (nth j ims dI);
  ii_dd : forall j, (j < n)%nat -> pv ims j = -1 -> bA j <= ic_death (nth j ims dI) <= rad;
  ii_exact : forall j r, calm j -> (j < n)%nat -> pv ims j = -1 -> In r done -> bA j <= r -> zon p (alB r) (fC ims j) -> ic_death (nth j ims dI) <= r;
  ii_FTc : forall j, calm j -> (j < n)%nat -> forall i, cong p (fC ims j i) (lc n (fT ims j) (fF F) i)
}.

Definition kb (ker : list kcol) (k : nat) : Z := kc_birth (nth k ker dK).
Definition kd (ker : list kcol) (k : nat) : Z := kc_death (nth k ker dK).

Record KerInv (done : list Z) (rho : Z) (ims : list icol) (ker : list kcol) : Prop := {
  ki_wf : forall k, (k < length ker)%nat -> wf_kc F (nth k ker dK);
  ki_birth : forall k, (k < length ker)%nat -> In (kb ker k) done;
  ki_mono : forall i k, (i <= k)%nat -> (k < length ker)%nat -> kb ker i <= kb ker k;
  ki_supp : forall k i, (k < length ker)%nat -> ~ cong p (fK ker k i) 0 -> (i < n)%nat /\ bA i <= kb ker k;
  ki_ker : forall k r, (k < length ker)%nat -> kb ker k <= r -> zon p (alB r) (lc n (on (alA r) (fK ker k)) (fF F));
  ki_range : forall k, (k < length ker)%nat -> kp ker k = -1 \/ 0 <= kp ker k;
  ki_piv : forall k, (k < length ker)%nat -> 0 <= kp ker k -> is_piv p (on (alA rho) (fK ker k)) (Z.to_nat (kp ker k));
  ki_pim : forall k, (k < length ker)%nat -> 0 <= kp ker k -> pv ims (Z.to_nat (kp ker k)) = -1;
  ki_dist : forall i j, (i < length ker)%nat -> (j < length ker)%nat -> i <> j -> 0 <= kp ker i -> kp ker i <> kp ker j;
  ki_zero : forall k, (k < length ker)%nat -> kp ker k = -1 -> zon p (alA rho) (fK ker k);
  ki_kd : forall k, (k < length ker)%nat -> kp ker k = -1 -> kb ker k < kd ker k <= rho;
  ki_alive : forall k r, (k < length ker)%nat -> kp ker k = -1 -> In r done -> kb ker k <= r ->
     (zon p (alA r) (fK ker k) <-> kd ker k <= r);
  ki_indep : forall r, In r done -> indep p (alA r) (length ker) (fK ker) (fun k => kb ker k <=? r);
  ki_span : forall r x, In r done -> (forall i, ~ cong p (x i) 0 -> alA r i = true) -> zon p (alB r) (lc n x (fF F)) ->
     gens p (alA r) (length ker) (fK ker) (fun k => kb ker k <=? r) x
}.

Definition covers (rho : Z) (ims : list icol) (ker : list kcol) : Prop :=
  forall j, alA rho j = true -> 0 <= pv ims j \/ exists k, (k < length ker)%nat /\ kp ker k = Z.of_nat j.

(** [rad] is the next radius after [rho]. *)
Definition next (done : list Z) (rho rad : Z) : Prop :=
  rho < rad /\ (forall r, In r done -> r <= rho) /\
  (forall i, (i < n)%nat -> (bA i <= rho \/ rad <= bA i) /\ (dA i <= rho \/ rad <= dA i)) /\
  (forall i, (i < m)%nat -> (bB i <= rho \/ rad <= bB i) /\ (dB i <= rho \/ rad <= dB i)).

Lemma C_support done rho rad ims j : ImInv done rho rad ims -> (j < n)%nat ->
  forall i, (i < m)%nat -> ~ cong p (fC ims j i) 0 -> bB i <= bA j.
Proof.
  intros HI Hj i Hi Hn. destruct (ii_U _ _ _ _ HI) as (U & HU). destruct (HU j Hj) as [Ht HC].
  rewrite HC in Hn. apply (image_support (U j) (bA j)); auto. intros k Hk E. apply Hsort; auto. apply Ht; auto.
Qed.

Lemma C_nonzero done rho rad ims j r : ImInv done rho rad ims -> (j < n)%nat -> 0 <= pv ims j -> bA j <= r -> r <= rho ->
  ~ zon p (alB r) (fC ims j).
Proof.
  intros HI Hj Hpv H1 H2 Hz. assert (X : zon p (alB rho) (fC ims j)).
  { apply (zB_persist _ (bA j) r rho); auto. apply (C_support done rho rad ims); auto. }
  destruct (ii_piv _ _ _ _ HI j Hj Hpv) as [Q _]. apply Q. apply X.
Qed.

Lemma K_nonzero done rho ims ker k r : KerInv done rho ims ker -> (k < length ker)%nat -> 0 <= kp ker k -> kb ker k <= r -> r <= rho ->
  ~ zon p (alA r) (fK ker k).
Proof.
  intros HI Hk Hkp H1 H2 Hz. assert (X : zon p (alA rho) (fK ker k)).
  { apply (zA_persist _ (kb ker k) r rho); auto. intros i Hi. apply (ki_supp _ _ _ _ HI k i Hk Hi). }
  destruct (ki_piv _ _ _ _ HI k Hk Hkp) as [Q _]. apply Q. apply X.
Qed.

(** Vectors as combinations of the image columns. *)
Lemma solve_C done rho rad ims q (x : fvec) : ImInv done rho rad ims -> (q < n)%nat -> (forall i, ~ cong p (x i) 0 -> (i <= q)%nat) ->
  exists w, (forall i, ~ cong p (w i) 0 -> (i <= q)%nat) /\ (forall i, cong p (lc n x (fF F) i) (lc n w (fC ims) i)) /\
    (~ cong p (x q) 0 -> ~ cong p (w q) 0).
Proof.
  intros HI Hq Hx. destruct (ii_U _ _ _ _ HI) as (U & HU).
  destruct (tri_solve p U Hp (S q)) with (x := x) as (w & W1 & W2 & W3).
  - intros j Hj. apply HU. lia.
  - intros i Hi. specialize (Hx i Hi). lia.
  - exists w. split; [intros i Hi; specialize (W1 i Hi); lia|]. split.
    + intros i. rewrite (lc_cong p n x (lc (S q) w U) (fF F) (fF F) i); [|intros; apply W2|reflexivity].
      rewrite lc_lc. rewrite (lc_extend p n (S q) w (fC ims) i); [|lia|].
      * apply lc_cong; [reflexivity|]. intros k Hk. symmetry. apply HU. lia.
      * intros l Hl. destruct (cong_dec p (w l) 0) as [|E]; auto. specialize (W1 l E). lia.
    + intros Hn. apply W3; auto.
Qed.

(** ** The kernel loop *)
Section KerStep.
Variables (done : list Z) (rho rad : Z) (ims : list icol) (ker : list kcol) (actA actB dyA : list nat).
Hypothesis HI : ImInv done rho rho ims.
Hypothesis HK : KerInv done rho ims ker.
Hypothesis Hnext : next done rho rad.
Hypothesis HactA : StronglySorted lt actA.
Hypothesis HactA' : forall i, mem actA i = alA rad i.
Hypothesis HactB' : forall i, mem actB i = alB rad i.
Hypothesis HdyA : forall i, In i dyA <-> (i < n)%nat /\ dA i = rad.

Lemma zon_actA v : zon p (mem actA) v <-> zon p (alA rad) v.
Proof. split; intros H; apply zon_intro; intros i Hi; apply (zon_at p _ v i H); rewrite ?HactA' in *; auto. Qed.
Lemma zon_actB v : zon p (mem actB) v <-> zon p (alB rad) v.
Proof. split; intros H; apply zon_intro; intros i Hi; apply (zon_at p _ v i H); rewrite ?HactB' in *; auto. Qed.
Lemma piv_actA v q : is_piv p (on (mem actA) v) q <-> is_piv p (on (alA rad) v) q.
Proof. split; intros H; apply (is_piv_veq p) with (2 := H); intros i; rewrite (on_ext _ _ v i HactA'); reflexivity. Qed.

Lemma In_actA i : In i actA <-> alA rad i = true.
Proof. rewrite <- HactA'. unfold mem. rewrite memn_In. tauto. Qed.

Lemma kpiv_stay k : (k < length ker)%nat -> 0 <= kp ker k -> ~ In (Z.to_nat (kp ker k)) dyA ->
  is_piv p (on (alA rad) (fK ker k)) (Z.to_nat (kp ker k)).
Proof.
  intros Hk H0 Hd. set (q := Z.to_nat (kp ker k)) in *. destruct (ki_piv _ _ _ _ HK k Hk H0) as [Q1 Q2]. fold q in Q1, Q2.
  destruct Hnext as (N1 & N2 & N3 & N4).
  assert (Hq : alA rho q = true). { unfold on in Q1. destruct (alA rho q); auto. elim Q1. reflexivity. }
  assert (Hq' : alA rad q = true).
  { apply alive_iff in Hq. apply alive_iff. destruct Hq as (H1 & H2 & H3). destruct (N3 q H1) as [_ [X|X]]; [lia|].
    split; auto. split; [lia|]. assert (dA q <> rad) by (intros E; apply Hd, HdyA; auto). lia. }
  split.
  - unfold on in *. rewrite Hq in Q1. rewrite Hq'. auto.
  - intros i Hi. specialize (Q2 i Hi). unfold on in *. destruct (alA rad i) eqn:E; [|reflexivity].
    destruct (cong_dec p (fK ker k i) 0) as [|Hn]; auto.
    assert (alA rho i = true).
    { apply alive_iff in E. apply alive_iff. destruct (ki_supp _ _ _ _ HK k i Hk Hn) as [_ S].
      pose proof (N2 _ (ki_birth _ _ _ _ HK k Hk)). lia. }
    rewrite H in Q2. auto.
Qed.

Lemma ker_phase_inv : exists ker1 newp ims1,
  foldM (ker_step F actA actB dyA rad p) ker ([], [], ims) = Ok (ker1, newp, ims1) /\
  length ker1 = length ker /\ ImInv done rho rad ims1 /\ KerInv done rad ims1 ker1 /\
  (forall j, alA rad j = true -> covers rho ims ker -> pv ims1 j = -1 -> exists k, (k < length ker1)%nat /\ kp ker1 k = Z.of_nat j) /\
  (count_alive ims1 <= count_alive ims)%nat.
Proof.
  destruct Hnext as (N1 & N2 & N3 & N4).
  destruct (ker_phase p F actA actB dyA rad) with (ker := ker) (ims0 := ims) as (ker1 & newp & ims1 & E & Hlen & G); auto.
  { intros i Hi. apply In_actA in Hi. apply (alA_lt rad); auto. }
  { apply HK. }
  { intros k Hk H0 Hd. apply piv_actA. apply kpiv_stay; auto. }
  { apply HK. }
  { apply HK. }
  { intros k Hk. apply zon_actB.
    apply (zon_cong p (alB rad) (lc n (on (alA rad) (fK ker k)) (fF F))).
    - intros i _. apply lc_cong; [|reflexivity]. intros x Hx. fold n. rewrite (on_ext _ _ _ x HactA'). reflexivity.
    - apply (ki_ker _ _ _ _ HK); auto. pose proof (N2 _ (ki_birth _ _ _ _ HK k Hk)). lia. }
  { apply HI. }
  { apply HI. }
  exists ker1, newp, ims1. split; [exact E|]. split; [exact Hlen|].
  pose proof (kg_cols _ _ _ _ _ _ _ _ _ _ _ G) as Gc. rewrite Hlen in Gc.
  (* choose the coefficients *)
  destruct (fin_choose (fun _ : nat => 0) (length ker) (fun k b => (forall i, b i <> 0 -> (i < k)%nat /\ 0 <= kp ker1 i) /\
     (forall i, cong p (fK ker1 k i) (fK ker k i + lc k b (fK ker1) i)))) as (b & Hb).
  { intros k Hk. destruct (Gc k Hk) as [_ _ H _]. exact H. }
  assert (Hkb : forall k, (k < length ker)%nat -> kb ker1 k = kb ker k).
  { intros k Hk. destruct (Gc k Hk) as [_ H _ _]. exact H. }
  assert (Hb' : forall k i, (k < length ker)%nat -> cong p (fK ker1 k i) (fK ker k i + lc (length ker) (b k) (fK ker1) i)).
  { intros k i Hk. destruct (Hb k Hk) as [B1 B2]. rewrite B2.
    rewrite (lc_extend p (length ker) k (b k) (fK ker1) i); [reflexivity|lia|].
    intros l Hl. destruct (Z.eq_dec (b k l) 0) as [->|Hn]; [reflexivity|]. destruct (B1 l Hn). lia. }
  assert (Hbnz : forall k i, (k < length ker)%nat -> ~ cong p (b k i) 0 -> (i < k)%nat /\ 0 <= kp ker1 i).
  { intros k i Hk Hn. apply (Hb k Hk). intros Z0. apply Hn. rewrite Z0. reflexivity. }
  assert (Hmono : forall i k, (i <= k)%nat -> (k < length ker)%nat -> kb ker1 i <= kb ker1 k).
  { intros i k Hik Hk. rewrite !Hkb by lia. apply (ki_mono _ _ _ _ HK); auto. }
  assert (Hbd : forall k, (k < length ker)%nat -> kb ker1 k <= rho).
  { intros k Hk. rewrite Hkb by auto. apply N2. apply (ki_birth _ _ _ _ HK); auto. }
  assert (Hsupp : forall k i, (k < length ker)%nat -> ~ cong p (fK ker1 k i) 0 -> (i < n)%nat /\ bA i <= kb ker1 k).
  { intros k. induction k as [k IH] using lt_wf_ind. intros i Hk Hn.
    destruct (cong_dec p (fK ker k i) 0) as [E0|E0].
    - assert (exists l, (l < k)%nat /\ ~ cong p (fK ker1 l i) 0) as (l & Hl & Hln).
      { destruct (existsb (fun l => negb (fK ker1 l i mod p =? 0)) (seq 0 k)) eqn:Ex.
        - apply existsb_exists in Ex. destruct Ex as (l & Hl & Hx). apply in_seq in Hl. exists l. split; [lia|].
          intros Hc. assert (Hp0 : p <> 0) by (destruct Hp; lia). apply (cong_iff_mod p _ _ Hp0) in Hc. rewrite Hc, Z.mod_0_l in Hx; auto. discriminate.
        - exfalso. apply Hn. destruct (Hb k Hk) as [_ B2]. rewrite B2, E0. cbn [Z.add]. apply lc_cong0. intros l Hl.
          assert (X : fK ker1 l i mod p = 0).
          { destruct (Z.eqb_spec (fK ker1 l i mod p) 0) as [|Hx]; auto. exfalso.
            assert (existsb (fun l => negb (fK ker1 l i mod p =? 0)) (seq 0 k) = true); [|congruence].
            apply existsb_exists. exists l. split; [apply in_seq; lia|]. apply Z.eqb_neq in Hx. rewrite Hx. reflexivity. }
          rewrite <- (cong_mod p (fK ker1 l i)), X. apply cong_eq; ring. }
      destruct (IH l Hl i ltac:(lia) Hln) as [S1 S2]. split; auto. pose proof (Hmono l k ltac:(lia) Hk). lia.
    - rewrite Hkb by auto. apply (ki_supp _ _ _ _ HK k i Hk E0). }
  assert (Hkk : forall k r, (k < length ker)%nat -> kb ker1 k <= r -> zon p (alB r) (lc n (on (alA r) (fK ker1 k)) (fF F))).
  { intros k r. induction k as [k IH] using lt_wf_ind. intros Hk Hr.
    apply (zon_cong p (alB r) (fun i => lc n (on (alA r) (fK ker k)) (fF F) i + lc k (b k) (fun l => lc n (on (alA r) (fK ker1 l)) (fF F)) i)).
    - intros i _. rewrite <- lc_lc, <- lc_add. apply lc_cong; [|reflexivity]. intros x Hx.
      rewrite <- (on_lc (alA r) k (b k) (fK ker1)), <- on_add. unfold on. destruct (alA r x); [|reflexivity]. symmetry. apply (Hb k Hk).
    - apply zon_add.
      + apply (ki_ker _ _ _ _ HK); auto. rewrite <- Hkb; auto.
      + apply zon_lc. intros l Hl _. apply IH; try lia. pose proof (Hmono l k ltac:(lia) Hk). lia. }
  assert (Hpim : forall k, (k < length ker)%nat -> 0 <= kp ker1 k -> pv ims1 (Z.to_nat (kp ker1 k)) = -1).
  { intros k Hk H0. destruct (kg_newp _ _ _ _ _ _ _ _ _ _ _ G k ltac:(lia) H0) as [X|X].
    - destruct (kg_newp1 _ _ _ _ _ _ _ _ _ _ _ G _ X) as (j & _ & _ & _ & H & _). auto.
    - rewrite X in *. pose proof (ki_pim _ _ _ _ HK k Hk H0) as Hm.
      assert (Hq : (Z.to_nat (kp ker k) < n)%nat).
      { destruct (ki_piv _ _ _ _ HK k Hk H0) as [Q _]. unfold on in Q. destruct (alA rho (Z.to_nat (kp ker k))) eqn:E'; [|elim Q; reflexivity].
        apply (alA_lt rho); auto. }
      destruct (kg_upd _ _ _ _ _ _ _ _ _ _ _ G _ Hq) as [_ _ [U|[(U & _)|(U & _)]]]; auto.
      unfold pv in *. rewrite U. auto. }
  assert (Hpiv : forall k, (k < length ker)%nat -> 0 <= kp ker1 k -> is_piv p (on (alA rad) (fK ker1 k)) (Z.to_nat (kp ker1 k))).
  { intros k Hk H0. destruct (Gc k Hk) as [_ _ _ [(_ & _ & Q & _)|[(Q1 & Q2)|(Q & _)]]].
    - apply piv_actA. exact Q.
    - unfold kp in H0. rewrite Q2 in H0. unfold kp in Q1. lia.
    - lia. }
  assert (HKI : forall r, In r done -> (forall k, (k < length ker)%nat -> kb ker k <=? r = true -> ~ zon p (alA r) (fK ker k) -> ~ zon p (alA r) (fK ker1 k)) /\
     indep p (alA r) (length ker) (fK ker1) (fun k => kb ker k <=? r)).
  { intros r Hr. apply (indep_tri p n (alA r) Hp (alA_lt r) (length ker) (fK ker) (fK ker1) (fun k => kb ker k <=? r) b).
    - apply (ki_indep _ _ _ _ HK); auto.
    - intros j Hj i Hi Hn. destruct (Hbnz j i Hj Hn) as [H1 _]. split; auto. intros Ho. apply Z.leb_le in Ho. apply Z.leb_le.
      pose proof (ki_mono _ _ _ _ HK i j ltac:(lia) Hj). lia.
    - intros j x Hj _ _. apply Hb'; auto.
    - intros j Hj Ho. apply Z.leb_le in Ho. destruct (Gc j Hj) as [_ _ _ Cs]. destruct (ki_range _ _ _ _ HK j Hj) as [R|R].
      + right. intros x. destruct Cs as [(_ & Q & _)|[(_ & Q)|(_ & Q & _)]]; try lia. unfold fK. rewrite Q. reflexivity.
      + left. apply (K_nonzero done rho ims ker); auto. }
  split.
  { (* image columns *)
    assert (Gu := kg_upd _ _ _ _ _ _ _ _ _ _ _ G). fold n in Gu.
    assert (Hpv : forall j, (j < n)%nat -> pv ims1 j <> -1 -> nth j ims1 dI = nth j ims dI).
    { intros j Hj Hn. destruct (Gu j Hj) as [_ _ [U|[(U & _)|(U & _)]]]; auto; contradiction. }
    assert (Hpos : forall j, (j < n)%nat -> 0 <= pv ims1 j -> nth j ims1 dI = nth j ims dI) by (intros; apply Hpv; auto; lia).
    assert (Hrep : forall j, (j < n)%nat -> pv ims j <> -1 -> pv ims1 j = -1 -> bA j <= rho /\ exists W, tri p j W /\ (forall i, cong p (fC ims1 j i) (lc n W (fF F) i)) /\
        (forall i, ~ cong p (W i) 0 -> (i < n)%nat) ).
    { intros j Hj Hn Hn1. destruct (Gu j Hj) as [_ _ [U|[(_ & U & _)|(_ & _ & _ & _ & k & Hk & Ek & HC & _)]]].
      - unfold pv in *. rewrite U in Hn1. contradiction.
      - contradiction.
      - rewrite Hlen in Hk. pose proof (Hpiv k Hk ltac:(lia)) as [Q1 Q2]. rewrite Ek, Nat2Z.id in Q1, Q2.
        split.
        + assert (X : ~ cong p (fK ker1 k j) 0). { apply on_nz in Q1. tauto. }
          destruct (Hsupp k j Hk X). specialize (Hbd k Hk). lia.
        + exists (on (mem actA) (fK ker1 k)). split; [|split; [exact HC|]].
          * split.
            -- intros i Hi. destruct (le_lt_dec i j); auto. elim Hi. rewrite (on_ext _ _ _ i HactA'). apply Q2; auto.
            -- rewrite (on_ext _ _ _ j HactA'). exact Q1.
          * intros i Hi. unfold on in Hi. destruct (mem actA i); [|elim Hi; reflexivity]. apply (Hsupp k i Hk Hi). }
    assert (Hsame : forall j, (j < n)%nat -> (pv ims j <> -1 /\ pv ims1 j = -1) \/ (pv ims1 j = pv ims j /\ forall i, fC ims1 j i = fC ims j i)).
    { intros j Hj. destruct (Gu j Hj) as [_ _ [U|[(U1 & U2 & U3 & _)|(U1 & U2 & _)]]].
      - right. unfold pv, fC. rewrite U. auto.
      - right. unfold fC. rewrite U3. split; auto. congruence.
      - left. auto. }
    assert (Htriall : exists U, forall j, (j < n)%nat -> tri p j (U j) /\ forall i, cong p (fC ims1 j i) (lc n (U j) (fF F) i)).
    { apply (fin_choose fzero n (fun j u => tri p j u /\ forall i, cong p (fC ims1 j i) (lc n u (fF F) i))). intros j Hj. destruct (Hsame j Hj) as [[S1 S2]|[S1 S2]].
      - destruct (Hrep j Hj S1 S2) as (_ & W & W1 & W2 & _). exists W. auto.
      - destruct (ii_U _ _ _ _ HI) as (U & HU). exists (U j). destruct (HU j Hj) as [H1 H2]. split; auto. intros i. rewrite S2. auto. }
    assert (Hcoef : exists w : nat -> nat -> Z, forall j, (j < n)%nat -> pv ims j <> -1 -> pv ims1 j = -1 ->
       (forall i, ~ cong p (w j i) 0 -> (i <= j)%nat) /\ ~ cong p (w j j) 0 /\
       forall i, cong p (fC ims1 j i) (lc n (w j) (fC ims) i)).
    { apply (fin_choose (fun _ : nat => 0) n (fun j w => pv ims j <> -1 -> pv ims1 j = -1 ->
       (forall i, ~ cong p (w i) 0 -> (i <= j)%nat) /\ ~ cong p (w j) 0 /\
       forall i, cong p (fC ims1 j i) (lc n w (fC ims) i))). intros j Hj.
      destruct (Z.eq_dec (pv ims j) (-1)) as [S1|S1]; [exists (fun _ => 0); intros; contradiction|].
      destruct (Z.eq_dec (pv ims1 j) (-1)) as [S2|S2]; [|exists (fun _ => 0); intros; contradiction].
      destruct (Hrep j Hj S1 S2) as (_ & W & [W1 W1'] & W2 & _).
      destruct (solve_C done rho rho ims j W HI Hj W1) as (w & X1 & X2 & X3). exists w. intros _ _.
      split; auto. split; auto. intros i. rewrite W2. apply X2. }
    destruct Hcoef as (w & Hw).
    assert (HIp : forall r, In r done -> (forall j, (j < n)%nat -> bA j <=? r = true -> ~ zon p (alB r) (fC ims j) -> ~ zon p (alB r) (fC ims1 j)) /\
       indep p (alB r) n (fC ims1) (fun j => bA j <=? r)).
    { intros r Hr. apply (indep_top p m (alB r) Hp (alB_lt r) n (fC ims) (fC ims1) (fun j => bA j <=? r) (fun j => w j j) (fun j i => if Nat.eqb i j then 0 else w j i)).
      - apply (ii_past _ _ _ _ HI); auto.
      - intros j Hj Ho. apply Z.leb_le in Ho. destruct (Hsame j Hj) as [[S1 S2]|[S1 S2]]; [|left; auto]. right.
        destruct (Hw j Hj S1 S2) as (X1 & X2 & X3). split; [|split; [auto|split]].
        + destruct (ii_range _ _ _ _ HI j Hj) as [R|[R|R]].
          * apply (ii_unborn _ _ _ _ HI j Hj) in R. specialize (N2 r Hr). lia.
          * contradiction.
          * apply (C_nonzero done rho rho ims); auto.
        + intros i Hi Hn. destruct (Nat.eqb_spec i j) as [->|Hij]; [elim Hn; reflexivity|]. specialize (X1 i Hn). split; [lia|].
          apply Z.leb_le. pose proof (Hsort i j X1 Hj). lia.
        + intros x _. rewrite X3. rewrite <- (lc_unit n j (fC ims) x Hj), <- lc_scale, <- lc_add. apply cong_eq. unfold lc. apply Zsum_ext.
          intros k Hk. unfold funit. destruct (Nat.eqb_spec k j) as [->|]; ring. }
    assert (Hcalm : forall j, calm j -> In j actA -> (exists i, In i dyA) -> False).
    { intros j Hno Hja (i & Hi). apply In_actA in Hja. apply alive_iff in Hja. apply HdyA in Hi. destruct Hi as [Hi Ei].
      destruct (Hno i Hi); lia. }
    constructor.
    - apply G.
    - intros j Hj. apply Gu; auto.
    - intros j Hj. destruct (Gu j Hj) as [_ U _]. rewrite U. apply HI; auto.
    - intros j Hj. destruct (Hsame j Hj) as [[_ S]|[S _]]; [auto|]. rewrite S. apply HI; auto.
    - intros j Hj. destruct (Hsame j Hj) as [[S1 S2]|[S _]].
      + destruct (Hrep j Hj S1 S2) as (X & _). rewrite S2. split; [lia|]. lia.
      + rewrite S. apply HI; auto.
    - exact Htriall.
    - intros j Hj. destruct (Gu j Hj) as [_ _ [U|[(_ & _ & _ & U & _)|(_ & U2 & _ & _ & k & Hk & Ek & _ & _ & HT)]]].
      + unfold fT. rewrite U. apply HI; auto.
      + unfold fT. rewrite U. apply HI; auto.
      + rewrite Hlen in Hk. pose proof (Hpiv k Hk ltac:(lia)) as [Q1 Q2]. rewrite Ek, Nat2Z.id in Q1, Q2.
        pose proof (ii_T _ _ _ _ HI j Hj) as HTj.
        split.
        * intros i Hi. destruct (le_lt_dec i j) as [|Hji]; auto. elim Hi. rewrite HT. rewrite HactA'. specialize (Q2 i Hji). unfold on in Q2.
          destruct (alA rad i); auto. apply (tri_above p j); auto.
        * rewrite HT, HactA'. unfold on in Q1. destruct (alA rad j); auto. elim Q1. reflexivity.
    - intros j Hj Hn i. pose proof (Hpv j Hj Hn) as U. unfold fC, fT, pv in *. rewrite U in *. apply (ii_FT _ _ _ _ HI j Hj Hn).
    - intros j Hj H0. pose proof (Hpos j Hj H0) as U. unfold fC, pv in *. rewrite U in *. apply (ii_piv _ _ _ _ HI j Hj H0).
    - intros i j Hi Hj Hij H0. pose proof (Hpos i Hi H0) as U. destruct (Z_lt_le_dec (pv ims1 j) 0); [lia|].
      pose proof (Hpos j Hj l) as U'. unfold pv in *. rewrite U, U' in *. apply (ii_dist _ _ _ _ HI); auto.
    - intros j Hj Hm. destruct (Gu j Hj) as [_ _ [U|[(_ & U0 & U & _)|(_ & _ & _ & _ & k & _ & _ & _ & U & _)]]].
      + unfold fC, pv in *. rewrite U in *. apply (zB_persist _ (bA j) rho rad); try lia.
        * apply (C_support done rho rho ims); auto.
        * destruct (Z_le_gt_dec (bA j) rho) as [|X]; auto. assert (Y : rho < bA j) by lia. apply (ii_unborn _ _ _ _ HI j Hj) in Y. unfold pv in Y. lia.
        * apply (ii_zero _ _ _ _ HI j Hj Hm).
      + unfold fC. rewrite U. apply (zB_persist _ (bA j) rho rad); try lia.
        * apply (C_support done rho rho ims); auto.
        * destruct (Z_le_gt_dec (bA j) rho) as [|X]; auto. assert (Y : rho < bA j) by lia. apply (ii_unborn _ _ _ _ HI j Hj) in Y. lia.
        * apply (ii_zero _ _ _ _ HI j Hj U0).
      + apply zon_actB. exact U.
    - intros j Hj H0. pose proof (Hpos j Hj H0) as U. unfold pv in *. rewrite U in *. apply (ii_alive _ _ _ _ HI j Hj H0).
    - intros r Hr. apply HIp; auto.
    - intros j r Hj Hm Hr Hbr Hnz. destruct (Gu j Hj) as [_ _ [U|[(_ & _ & _ & _ & U & _)|(_ & _ & U & _)]]].
      + unfold fC, pv in *. rewrite U in *. apply (ii_death _ _ _ _ HI); auto.
      + rewrite U. specialize (N2 r Hr). lia.
      + rewrite U. specialize (N2 r Hr). lia.
    - intros j Hj Hm. 
      assert (bA j <= rho).
      { destruct (Hsame j Hj) as [[S1 S2]|[S _]]; [apply (Hrep j Hj S1 S2)|].
        destruct (Z_le_gt_dec (bA j) rho) as [|X]; auto. assert (Y : rho < bA j) by lia. apply (ii_unborn _ _ _ _ HI j Hj) in Y. lia. }
      destruct (Gu j Hj) as [_ _ [U|[(_ & _ & _ & _ & U & _)|(_ & _ & U & _)]]].
      + unfold pv in *. rewrite U in *. pose proof (ii_dd _ _ _ _ HI j Hj Hm). lia.
      + rewrite U. lia.
      + rewrite U. lia.
    - intros j r Hno Hj Hm Hr Hbr Hz. pose proof (Hcalm j Hno) as Hcon.
      destruct (Gu j Hj) as [_ _ [U|[(_ & _ & _ & _ & _ & U1 & U2)|(_ & _ & _ & (U1 & U2) & _)]]]; try (exfalso; auto; fail).
      unfold fC, pv in *. rewrite U in *. apply (ii_exact _ _ _ _ HI); auto.
    - intros j Hno Hj i. pose proof (Hcalm j Hno) as Hcon.
      destruct (Gu j Hj) as [_ _ [U|[(_ & _ & _ & _ & _ & U1 & U2)|(_ & _ & _ & (U1 & U2) & _)]]]; try (exfalso; auto; fail).
      unfold fC, fT in *. rewrite U in *. apply (ii_FTc _ _ _ _ HI); auto. }
  split.
  { (* kernel columns *)
    constructor; rewrite ?Hlen; auto.
    - intros k Hk. apply Gc; auto.
    - intros k Hk. rewrite Hkb by auto. apply (ki_birth _ _ _ _ HK); auto.
    - intros k Hk. destruct (Gc k Hk) as [_ _ _ [(Q & _)|[(Q1 & Q2)|(Q & _)]]]; auto.
      left. unfold kp in *. rewrite Q2. auto.
    - intros i j Hi Hj. apply (kg_dist _ _ _ _ _ _ _ _ _ _ _ G); lia.
    - intros k Hk Hm. destruct (Gc k Hk) as [_ _ _ [(Q & _)|[(Q1 & Q2)|(_ & _ & Q & _)]]]; [lia| |].
      + unfold fK. rewrite Q2. apply (zA_persist _ (kb ker k) rho rad); try lia.
        * intros i Hi. apply (ki_supp _ _ _ _ HK k i Hk Hi).
        * apply N2. apply (ki_birth _ _ _ _ HK k Hk).
        * apply (ki_zero _ _ _ _ HK k Hk Q1).
      + apply zon_actA. exact Q.
    - intros k Hk Hm. rewrite Hkb by auto. destruct (Gc k Hk) as [_ _ _ [(Q & _)|[(Q1 & Q2)|(_ & _ & _ & Q)]]]; [lia| |].
      + unfold kd. rewrite Q2. pose proof (ki_kd _ _ _ _ HK k Hk Q1). unfold kd in *. lia.
      + unfold kd. rewrite Q. pose proof (N2 _ (ki_birth _ _ _ _ HK k Hk)). lia.
    - intros k r Hk Hm Hr Hkr. rewrite Hkb in Hkr by auto. destruct (Gc k Hk) as [_ _ _ [(Q & _)|[(Q1 & Q2)|(_ & Q1 & _ & Q)]]]; [lia| |].
      + unfold fK, kd. rewrite Q2. apply (ki_alive _ _ _ _ HK k r); auto.
      + unfold kd. rewrite Q. specialize (N2 r Hr). split; [|lia]. intros Hz. exfalso.
        apply (proj1 (HKI r Hr) k Hk); auto; [apply Z.leb_le; auto|]. apply (K_nonzero done rho ims ker); auto.
    - intros r Hr. apply (indep_lt p (alA r) (length ker) (fK ker1) (fun k => kb ker k <=? r)); [|apply HKI; auto].
      intros j Hj. rewrite Hkb by auto. auto.
    - intros r x Hr Hx Hz.
      assert (X : gens p (alA r) (length ker) (fK ker1) (fun k => kb ker k <=? r) x).
      { apply (gens_tri p (alA r) (length ker) (fK ker) (fK ker1) _ b).
        - intros j Hj Ho i Hi Hn. apply Z.leb_le in Ho. apply Z.leb_le. destruct (Hbnz j i Hj Hn) as [H1 _].
          pose proof (ki_mono _ _ _ _ HK i j ltac:(lia) Hj). lia.
        - intros j i Hj _ _. apply Hb'; auto.
        - apply (ki_span _ _ _ _ HK); auto. }
      destruct X as (c & Hc & Hx'). exists c. split; auto. intros j Hj Hn. rewrite Hkb by auto. auto. }
  split; [|apply G].
  intros j Hj Hcov Hm.
  assert (Hjn : (j < n)%nat) by (apply (alA_lt rad); auto).
  assert (Hjr : alA rho j = true).
  { apply alive_iff in Hj. apply alive_iff. destruct Hj as (_ & H1 & H2). destruct (N3 j Hjn) as [X _]. split; auto. split; [|lia].
    destruct X as [X|X]; auto. exfalso. assert (Y : rho < bA j) by lia. apply (ii_unborn _ _ _ _ HI j Hjn) in Y.
    destruct (kg_upd _ _ _ _ _ _ _ _ _ _ _ G j Hjn) as [_ _ [U|[(_ & U & _)|(_ & _ & _ & _ & k & Hk & Ek & _)]]].
    - unfold pv in *. rewrite U in *. lia.
    - lia.
    - rewrite Hlen in Hk. pose proof (Hpiv k Hk ltac:(lia)) as [Q1 _]. rewrite Ek, Nat2Z.id in Q1.
      assert (Z0 : ~ cong p (fK ker1 k j) 0). { apply on_nz in Q1. tauto. }
      destruct (Hsupp k j Hk Z0). specialize (Hbd k Hk). lia. }
  rewrite Hlen. destruct (Hcov j Hjr) as [Hc|(k & Hk & Ek)].
  - destruct (kg_upd _ _ _ _ _ _ _ _ _ _ _ G j Hjn) as [_ _ [U|[(_ & U & _)|(_ & _ & _ & _ & k & Hk & Ek & _)]]].
    + unfold pv in *. rewrite U in *. lia.
    + lia.
    + exists k. rewrite Hlen in Hk. auto.
  - destruct (kg_cov _ _ _ _ _ _ _ _ _ _ _ G k) as (k' & Hk' & Ek'); try lia.
    + rewrite Ek, Nat2Z.id. rewrite HdyA. apply alive_iff in Hj. lia.
    + exists k'. split; [lia|congruence].
Qed.
End KerStep.
(** ** The image loop *)
Section ImStep.
Variables (done : list Z) (rho rad : Z) (ims : list icol) (ker : list kcol) (actB dyA birA dyB : list nat).
Hypothesis HI : ImInv done rho rad ims.
Hypothesis HK : KerInv done rad ims ker.
Hypothesis Hcov : forall j, alA rad j = true -> pv ims j = -1 -> exists k, (k < length ker)%nat /\ kp ker k = Z.of_nat j.
Hypothesis Hcount : (length ker + count_alive ims <= n)%nat.
Hypothesis Hnext : next done rho rad.
Hypothesis HactB : StronglySorted lt actB.
Hypothesis HactB' : forall i, mem actB i = alB rad i.
Hypothesis HdyA : forall i, In i dyA <-> (i < n)%nat /\ dA i = rad.
Hypothesis HbirA : forall i, In i birA <-> (i < n)%nat /\ bA i = rad.
Hypothesis HdyB : forall i, In i dyB <-> (i < m)%nat /\ dB i = rad.

Local Lemma zonB v : zon p (mem actB) v <-> zon p (alB rad) v.
Proof. split; intros H; apply zon_intro; intros i Hi; apply (zon_at p _ v i H); rewrite ?HactB' in *; auto. Qed.
Local Lemma pivB v q : is_piv p (on (mem actB) v) q <-> is_piv p (on (alB rad) v) q.
Proof. split; intros H; apply (is_piv_veq p) with (2 := H); intros i; rewrite (on_ext _ _ v i HactB'); reflexivity. Qed.

Lemma ipiv_stay j : (j < n)%nat -> 0 <= pv ims j -> ~ In (Z.to_nat (pv ims j)) dyB ->
  is_piv p (on (alB rad) (fC ims j)) (Z.to_nat (pv ims j)).
Proof.
  intros Hj H0 Hd. set (q := Z.to_nat (pv ims j)) in *. destruct (ii_piv _ _ _ _ HI j Hj H0) as [Q1 Q2]. fold q in Q1, Q2.
  destruct Hnext as (N1 & N2 & N3 & N4).
  destruct (on_nz p _ _ _ Q1) as [Hq Qn].
  assert (Hbj : bA j <= rho).
  { destruct (Z_le_gt_dec (bA j) rho) as [|X]; auto. assert (Y : rho < bA j) by lia. apply (ii_unborn _ _ _ _ HI j Hj) in Y. lia. }
  assert (Hq' : alB rad q = true).
  { apply alive_iff in Hq. apply alive_iff. destruct Hq as (H1 & H2 & H3). destruct (N4 q H1) as [_ [X|X]]; [lia|].
    split; auto. split; [lia|]. assert (dB q <> rad) by (intros E; apply Hd, HdyB; auto). lia. }
  split.
  - unfold on. rewrite Hq'. auto.
  - intros i Hi. specialize (Q2 i Hi). unfold on in *. destruct (alB rad i) eqn:E; [|reflexivity].
    destruct (cong_dec p (fC ims j i) 0) as [|Hn]; auto.
    assert (alB rho i = true).
    { apply alive_iff in E. apply alive_iff. pose proof (C_support done rho rad ims j HI Hj i ltac:(tauto) Hn). lia. }
    rewrite H in Q2. auto.
Qed.

Lemma im_phase_inv : exists ims2 newp ker2,
  foldM (im_step F actB dyA birA dyB rad p 0 n false) ims ([], [], ker) = Ok (ims2, newp, ker2) /\
  ImInv (done ++ [rad]) rad rad ims2 /\ KerInv (done ++ [rad]) rad ims2 ker2 /\ covers rad ims2 ker2 /\
  (length ker2 + count_alive ims2 <= n)%nat.
Proof.
  destruct Hnext as (N1 & N2 & N3 & N4).
  destruct (im_phase p F actB dyA birA dyB rad 0 n Hp HF HactB) with (ims := ims) (ker := ker)
    as (ims2 & newp & ker2 & E & Hlen & G & Hcnt); auto.
  { intros i Hi. apply (alB_lt rad). rewrite <- HactB'. apply memn_In. auto. }
  { apply HI. }
  { apply HI. }
  { intros j Hj H0 Hd _. apply pivB. apply ipiv_stay; auto. }
  { apply HI. }
  { intros j Hj Hb. apply (ii_unborn _ _ _ _ HI j Hj). apply HbirA in Hb. lia. }
  { apply HI. }
  fold n in Hlen.
  exists ims2, newp, ker2. split; [exact E|].
  destruct G as [Gc Gd _ _ (js & Ek & Hjs & Hj)]. rewrite Hlen in *.
  (* per column facts *)
  assert (Hcol : forall j, (j < n)%nat ->
    (exists b : nat -> Z, (forall i, b i <> 0 -> (i < j)%nat /\ 0 <= pv ims2 i) /\
      (forall i, cong p (fC ims2 j i) (fC ims j i + lc j b (fC ims2) i)) /\
      (forall i, cong p (fT ims2 j i) (fT ims j i + lc j b (fT ims2) i))) /\
    ( (0 <= pv ims2 j /\ is_piv p (on (alB rad) (fC ims2 j)) (Z.to_nat (pv ims2 j)) /\ pv ims j <> -1 /\ (pv ims j = -2 -> bA j = rad)) \/
      (nth j ims2 dI = nth j ims dI /\ (pv ims j = -1 \/ pv ims j = -2 /\ bA j <> rad)) \/
      (pv ims2 j = -1 /\ pv ims j <> -1 /\ (pv ims j = -2 -> bA j = rad) /\ ic_death (nth j ims2 dI) = rad /\ zon p (alB rad) (fC ims2 j)))).
  { intros j Hjn. destruct (Gc j Hjn) as (pre & pret & [_ _ (b & B1 & B2 & B3) Cs]).
    assert (Hpre : (forall i, pre i = fC ims2 j i) /\ (forall i, pret i = fT ims2 j i)).
    { destruct Cs as [(_ & _ & _ & X & Y & _)|[(_ & _ & X & Y)|(_ & _ & _ & _ & _ & X & _)]]; auto. }
    destruct Hpre as [P1 P2]. split.
    - exists b. split; auto. split; intros i; [rewrite <- P1|rewrite <- P2]; auto.
    - destruct Cs as [(C1 & C2 & _ & _ & _ & C3 & C4)|[(C1 & C2 & _)|(C1 & C2 & C3 & C4 & C5 & _)]].
      + left. split; auto. split; [apply pivB; exact C2|]. split; auto. intros X. apply HbirA. auto.
      + right; left. split; auto. destruct C2 as [|[C2 C3]]; auto. right. split; auto. intros X. apply C3. apply HbirA. auto.
      + right; right. split; auto. split; auto. split; [intros X; apply HbirA; auto|]. split; auto.
        apply zonB. apply (zon_cong p (mem actB) pre); auto. intros i _. rewrite P1. reflexivity. }
  destruct (fin_choose (fun _ : nat => 0) n (fun j b => (forall i, b i <> 0 -> (i < j)%nat /\ 0 <= pv ims2 i) /\
      (forall i, cong p (fC ims2 j i) (fC ims j i + lc j b (fC ims2) i)) /\
      (forall i, cong p (fT ims2 j i) (fT ims j i + lc j b (fT ims2) i)))) as (b & Hb).
  { intros j Hjn. apply Hcol; auto. }
  assert (Hb' : forall j i, (j < n)%nat -> cong p (fC ims2 j i) (fC ims j i + lc n (b j) (fC ims2) i)).
  { intros k i Hk. destruct (Hb k Hk) as (B1 & B2 & _). rewrite B2.
    rewrite (lc_extend p n k (b k) (fC ims2) i); [reflexivity|lia|].
    intros l Hl. destruct (Z.eq_dec (b k l) 0) as [->|Hn]; [reflexivity|]. destruct (B1 l Hn). lia. }
  assert (Hbnz : forall k i, (k < n)%nat -> ~ cong p (b k i) 0 -> (i < k)%nat /\ 0 <= pv ims2 i).
  { intros k i Hk Hn. apply (Hb k Hk). intros Z0. apply Hn. rewrite Z0. reflexivity. }
  assert (Hm1 : forall j, (j < n)%nat -> pv ims j = -1 -> nth j ims2 dI = nth j ims dI).
  { intros j Hjn Hm. destruct (Hcol j Hjn) as [_ [(_ & _ & X & _)|[(X & _)|(_ & X & _)]]]; auto; contradiction. }
  assert (Hborn : forall j, (j < n)%nat -> (pv ims2 j = -2 <-> rad < bA j)).
  { intros j Hjn. pose proof (ii_unborn _ _ _ _ HI j Hjn) as Hu. destruct (N3 j Hjn) as [X _].
    destruct (Hcol j Hjn) as [_ [(C1 & _ & C2 & C3)|[(C1 & C2)|(C1 & _ & C3 & _)]]].
    - split; [lia|]. intros Hr. assert (pv ims j = -2) by (apply Hu; lia). specialize (C3 H). lia.
    - assert (Ep : pv ims2 j = pv ims j) by (unfold pv; rewrite C1; auto). rewrite Ep. destruct C2 as [C2|[C2 C3]].
      + split; [lia|]. intros Hr. assert (pv ims j = -2) by (apply Hu; lia). lia.
      + split; auto. intros _. apply Hu in C2. lia.
    - split; [lia|]. intros Hr. assert (pv ims j = -2) by (apply Hu; lia). specialize (C3 H). lia. }
  assert (HT : forall j, (j < n)%nat -> tri p j (fT ims2 j)).
  { intros j. induction j as [j IH] using lt_wf_ind. intros Hjn. destruct (Hb j Hjn) as (B1 & _ & B3).
    apply (tri_cong p j (fun i => fT ims j i + lc j (b j) (fT ims2) i)); [intros i; symmetry; apply B3|].
    apply tri_comb; [apply HI; auto|]. intros l Hl _. split; auto. apply IH; lia. }
  assert (HFT : forall j, (j < n)%nat -> pv ims j <> -1 -> forall i, cong p (fC ims2 j i) (lc n (fT ims2 j) (fF F) i)).
  { intros j. induction j as [j IH] using lt_wf_ind. intros Hjn Hm i. destruct (Hb j Hjn) as (B1 & B2 & B3).
    rewrite B2. rewrite (ii_FT _ _ _ _ HI j Hjn Hm i).
    rewrite (lc_cong p n (fT ims2 j) (fun x => fT ims j x + lc j (b j) (fT ims2) x) (fF F) (fF F) i); [|intros; apply B3|reflexivity].
    rewrite lc_add, lc_lc. unfold lc at 2 4. rewrite (Zsum_cong p j _ (fun k => b j k * lc n (fT ims2 k) (fF F) i)); [reflexivity|].
    intros l Hl. destruct (Z.eq_dec (b j l) 0) as [->|Hn]; [apply cong_eq; ring|]. destruct (B1 l Hn) as [_ B1'].
    rewrite (IH l Hl ltac:(lia)); [reflexivity|]. intros Hx. pose proof (Hm1 l ltac:(lia) Hx) as Y. unfold pv in *. rewrite Y in B1'. lia. }
  assert (HU : exists U, forall j, (j < n)%nat -> tri p j (U j) /\ forall i, cong p (fC ims2 j i) (lc n (U j) (fF F) i)).
  { apply (fin_choose fzero n (fun j u => tri p j u /\ forall i, cong p (fC ims2 j i) (lc n u (fF F) i))).
    intros j. induction j as [j IH] using lt_wf_ind. intros Hjn. destruct (Hb j Hjn) as (B1 & B2 & _).
    destruct (fin_choose fzero j (fun l u => tri p l u /\ forall i, cong p (fC ims2 l i) (lc n u (fF F) i))) as (W & HW).
    { intros l Hl. apply IH; lia. }
    destruct (ii_U _ _ _ _ HI) as (U & HU). destruct (HU j Hjn) as [U1 U2].
    exists (fun x => U j x + lc j (b j) W x). split.
    - apply tri_comb; auto. intros l Hl _. split; auto. apply HW; auto.
    - intros i. rewrite B2, U2. rewrite lc_add, lc_lc. 
      rewrite (lc_cong p j (b j) (b j) (fC ims2) (fun l => lc n (W l) (fF F)) i); [reflexivity|reflexivity|]. intros l Hl. apply HW; auto. }
  assert (HIp : forall r, In r done -> (forall j, (j < n)%nat -> bA j <=? r = true -> ~ zon p (alB r) (fC ims j) -> ~ zon p (alB r) (fC ims2 j)) /\
     indep p (alB r) n (fC ims2) (fun j => bA j <=? r)).
  { intros r Hr. apply (indep_tri p m (alB r) Hp (alB_lt r) n (fC ims) (fC ims2) (fun j => bA j <=? r) b).
    - apply (ii_past _ _ _ _ HI); auto.
    - intros j Hjn i Hi Hn. destruct (Hbnz j i Hjn Hn) as [H1 _]. split; auto. intros Ho. apply Z.leb_le in Ho. apply Z.leb_le.
      pose proof (Hsort i j ltac:(lia) Hjn). lia.
    - intros j x Hjn _ _. apply Hb'; auto.
    - intros j Hjn Ho. apply Z.leb_le in Ho. destruct (ii_range _ _ _ _ HI j Hjn) as [R|[R|R]].
      + apply (ii_unborn _ _ _ _ HI j Hjn) in R. specialize (N2 r Hr). lia.
      + right. intros x. unfold fC. rewrite Hm1; auto.
      + left. apply (C_nonzero done rho rad ims); auto. }
  assert (Hzero : forall j, (j < n)%nat -> pv ims2 j = -1 -> zon p (alB rad) (fC ims2 j)).
  { intros j Hjn Hm. destruct (Hcol j Hjn) as [_ [(C1 & _)|[(C1 & C2)|(_ & _ & _ & _ & C5)]]]; auto; [lia|].
    unfold fC, pv in *. rewrite C1 in *. apply (ii_zero _ _ _ _ HI j Hjn Hm). }
  assert (Hpiv : forall j, (j < n)%nat -> 0 <= pv ims2 j -> is_piv p (on (alB rad) (fC ims2 j)) (Z.to_nat (pv ims2 j))).
  { intros j Hjn H0. destruct (Hcol j Hjn) as [_ [(_ & C2 & _)|[(C1 & C2)|(C1 & _)]]]; auto; [|lia].
    unfold pv in *. rewrite C1 in *. lia. }
  assert (Hrange : forall j, (j < n)%nat -> pv ims2 j = -2 \/ pv ims2 j = -1 \/ 0 <= pv ims2 j).
  { intros j Hjn. destruct (Hcol j Hjn) as [_ [(C1 & _)|[(C1 & C2)|(C1 & _)]]]; auto.
    unfold pv in *. rewrite C1 in *. tauto. }
  assert (HIrad : indep p (alB rad) n (fC ims2) (fun j => bA j <=? rad)).
  { apply (indep_piv p (alB rad) Hp n (fC ims2) _ (fun j => Z.to_nat (pv ims2 j))).
    - intros j Hjn Ho. apply Z.leb_le in Ho. destruct (Hrange j Hjn) as [R|[R|R]]; auto.
      apply Hborn in R; auto. lia.
    - intros i j Hi Hjn Ho Ho' Hn Hn' Eq. destruct (Nat.eq_dec i j) as [|Hij]; auto. exfalso.
      apply Z.leb_le in Ho, Ho'.
      assert (P0 : forall l, (l < n)%nat -> bA l <= rad -> ~ zon p (alB rad) (fC ims2 l) -> 0 <= pv ims2 l).
      { intros l Hl Hbl Hnl. destruct (Hrange l Hl) as [R|[R|R]]; auto; [apply Hborn in R; auto; lia|]. elim Hnl. apply Hzero; auto. }
      apply (Gd i j Hi Hjn Hij); auto. pose proof (P0 i Hi Ho Hn). pose proof (P0 j Hjn Ho' Hn'). lia. }
  assert (Hdone : forall r, In r (done ++ [rad]) -> In r done \/ r = rad).
  { intros r Hr. apply in_app_or in Hr. destruct Hr as [|[<-|[]]]; auto. }
  assert (Hdd : forall j, (j < n)%nat -> pv ims2 j = -1 -> bA j <= ic_death (nth j ims2 dI) <= rad).
  { intros j Hjn Hm. destruct (Hcol j Hjn) as [_ [(C1 & _)|[(C1 & C2)|(C1 & C2 & C3 & C4 & _)]]]; [lia| |].
    - unfold pv in *. rewrite C1 in *. apply (ii_dd _ _ _ _ HI j Hjn Hm).
    - rewrite C4. split; [|lia]. destruct (Z_le_gt_dec (bA j) rad); auto. assert (Y : pv ims2 j = -2) by (apply Hborn; auto; lia). lia. }
  (* generators with nonzero image columns are alive *)
  assert (Hal : forall j, (j < n)%nat -> 0 <= pv ims2 j -> rad < dA j).
  { intros j Hjn H0. destruct (Z_lt_le_dec rad (dA j)) as [|Hd]; auto. exfalso.
    assert (Hbj : bA j <= rad). { destruct (Z_le_gt_dec (bA j) rad); auto. assert (Y : pv ims2 j = -2) by (apply Hborn; auto; lia). lia. }
    destruct HU as (U & HU).
    destruct (tri_solve p U Hp (S j)) with (x := funit j) as (w & W1 & W2 & W3).
    { intros l Hl. apply HU. lia. }
    { intros i Hi. destruct (tri_funit p j Hp) as [X _]. specialize (X i Hi). lia. }
    assert (Hwj : ~ cong p (w j) 0). { apply W3; auto. apply (tri_funit p j Hp). }
    apply Hwj. apply (indep_use p m (alB rad) Hp (alB_lt rad) n (fC ims2) (fun j => bA j <=? rad) w HIrad); auto.
    - intros i Hi Hn. apply Z.leb_le. specialize (W1 i Hn). pose proof (Hsort i j ltac:(lia) Hjn). lia.
    - apply (zon_cong p (alB rad) (fF F j)); [|apply dead_image; auto].
      intros i _. rewrite <- (lc_unit n j (fF F) i Hjn).
      rewrite (lc_cong p n (funit j) (lc (S j) w U) (fF F) (fF F) i); [|intros; apply W2|reflexivity].
      rewrite lc_lc. rewrite (lc_extend p n (S j) w (fC ims2) i); [|lia|].
      + apply lc_cong; [reflexivity|]. intros k Hk. symmetry. apply HU. lia.
      + intros l Hl. destruct (cong_dec p (w l) 0) as [|X]; auto. specialize (W1 l X). lia.
    - intros Hz. destruct (Hpiv j Hjn H0) as [Q _]. apply Q. apply Hz. }
  assert (HImInv : ImInv (done ++ [rad]) rad rad ims2).
  { constructor; auto.
    - intros j Hjn. destruct (Gc j Hjn) as (pre & pret & [X _ _ _]). exact X.
    - intros j Hjn. destruct (Gc j Hjn) as (pre & pret & [_ X _ _]). rewrite X. apply HI; auto.
    - intros j Hjn Hm. apply HFT; auto. intros X. pose proof (Hm1 j Hjn X) as Y. unfold pv in *. rewrite Y in Hm. contradiction.
    - intros r Hr. destruct (Hdone r Hr) as [H| ->]; auto. apply HIp; auto.
    - intros j r Hjn Hm Hr Hbr Hnz. destruct (Hdone r Hr) as [H| ->].
      2:{ elim Hnz. apply Hzero; auto. }
      destruct (Hcol j Hjn) as [_ [(C1 & _)|[(C1 & C2)|(C1 & C2 & C3 & C4 & _)]]]; [lia| |].
      + unfold fC, pv in *. rewrite C1 in *. apply (ii_death _ _ _ _ HI); auto.
      + rewrite C4. specialize (N2 r H). lia.
    - intros j r Hno Hjn Hm Hr Hbr Hz. destruct (Hdone r Hr) as [H| ->]; [|apply Hdd; auto].
      destruct (Hcol j Hjn) as [_ [(C1 & _)|[(C1 & C2)|(C1 & C2 & C3 & C4 & _)]]]; [lia| |].
      + unfold fC, pv in *. rewrite C1 in *. apply (ii_exact _ _ _ _ HI); auto.
      + exfalso. apply (proj1 (HIp r H) j Hjn); auto; [apply Z.leb_le; auto|].
        destruct (ii_range _ _ _ _ HI j Hjn) as [R|[R|R]]; [|contradiction|].
        * specialize (C3 R). specialize (N2 r H). lia.
        * apply (C_nonzero done rho rad ims); auto.
    - intros j Hno Hjn i. destruct (Z.eq_dec (pv ims j) (-1)) as [X|X]; [|apply HFT; auto].
      pose proof (Hm1 j Hjn X) as Y. unfold fC, fT. rewrite Y. apply (ii_FTc _ _ _ _ HI); auto. }
  split; [exact HImInv|].
  (* kernel *)
  assert (Hklen : length ker2 = (length ker + length js)%nat) by (rewrite Ek, app_length; unfold kers; rewrite map_length; auto).
  assert (Hold : forall k, (k < length ker)%nat -> nth k ker2 dK = nth k ker dK).
  { intros k Hk. rewrite Ek. rewrite app_nth1 by auto. reflexivity. }
  assert (Hnew : forall k, (length ker <= k < length ker2)%nat -> exists j, nth (k - length ker) js 0%nat = j /\ In j js /\
     nth k ker2 dK = KCol rad 0 (ic_T (nth j ims2 dI)) (Z.of_nat j)).
  { intros k Hk. exists (nth (k - length ker) js 0%nat). split; auto. split; [apply nth_In; lia|].
    rewrite Ek. rewrite app_nth2 by lia. unfold kers. rewrite (nth_map _ js _ 0%nat) by lia. reflexivity. }
  assert (Hjal : forall j, In j js -> (j < n)%nat /\ pv ims2 j = -1 /\ pv ims j <> -1 /\ bA j <= rad /\ alA rad j = true).
  { intros j Hin. apply Hj in Hin. destruct Hin as (H1 & _ & H2 & H3 & H4). split; auto. split; auto. split; auto.
    assert (Hbj : bA j <= rad). { destruct (Z_le_gt_dec (bA j) rad); auto. assert (Y : pv ims2 j = -2) by (apply Hborn; auto; lia). lia. }
    split; auto. apply alive_iff. split; auto. split; auto.
    assert (dA j <> rad) by (intros X; apply H4, HdyA; auto).
    destruct (ii_range _ _ _ _ HI j H1) as [R|[R|R]]; [|contradiction|].
    - apply (ii_unborn _ _ _ _ HI j H1) in R. destruct (N3 j H1) as [[X|X] _]; [lia|]. specialize (HbarA j H1). lia.
    - pose proof (ii_alive _ _ _ _ HI j H1 R). destruct (N3 j H1) as [_ [X|X]]; lia. }
  assert (Hcase : forall k, (k < length ker2)%nat -> (k < length ker)%nat \/ (length ker <= k < length ker2)%nat) by (intros; lia).
  assert (Kb_old : forall k, (k < length ker)%nat -> kb ker2 k = kb ker k) by (intros k Hk; unfold kb; rewrite Hold; auto).
  assert (Kd_old : forall k, (k < length ker)%nat -> kd ker2 k = kd ker k) by (intros k Hk; unfold kd; rewrite Hold; auto).
  assert (Kp_old : forall k, (k < length ker)%nat -> kp ker2 k = kp ker k) by (intros k Hk; unfold kp; rewrite Hold; auto).
  assert (K_old : forall k, (k < length ker)%nat -> fK ker2 k = fK ker k) by (intros k Hk; unfold fK; rewrite Hold; auto).
  assert (Kb_le : forall k, (k < length ker)%nat -> kb ker k <= rho) by (intros k Hk; apply N2, (ki_birth _ _ _ _ HK); auto).
  assert (Knew : forall k, (length ker <= k < length ker2)%nat -> exists j, In j js /\ nth (k - length ker) js 0%nat = j /\
     kb ker2 k = rad /\ kp ker2 k = Z.of_nat j /\ fK ker2 k = fT ims2 j /\ nth k ker2 dK = KCol rad 0 (ic_T (nth j ims2 dI)) (Z.of_nat j)).
  { intros k Hk. destruct (Hnew k Hk) as (j & X & Y & Z0). exists j. unfold kb, kp, fK. rewrite Z0. cbn. repeat split; auto. }
  assert (Hpiv2 : forall k, (k < length ker2)%nat -> 0 <= kp ker2 k -> is_piv p (on (alA rad) (fK ker2 k)) (Z.to_nat (kp ker2 k))).
  { intros k Hk H0. destruct (Hcase k Hk) as [H|H].
    - rewrite K_old, Kp_old in * by auto. apply (ki_piv _ _ _ _ HK); auto.
    - destruct (Knew k H) as (j & J1 & _ & _ & J2 & J3 & _). rewrite J2, J3, Nat2Z.id.
      destruct (Hjal j J1) as (A1 & A2 & A3 & A4 & A5). destruct (HT j A1) as [T1 T2]. split.
      + unfold on. rewrite A5. auto.
      + intros i Hi. unfold on. destruct (alA rad i); [|reflexivity]. apply (tri_above p j); auto. }
  assert (Hpim2 : forall k, (k < length ker2)%nat -> 0 <= kp ker2 k -> pv ims2 (Z.to_nat (kp ker2 k)) = -1).
  { intros k Hk H0. destruct (Hcase k Hk) as [H|H].
    - rewrite Kp_old in * by auto. pose proof (ki_pim _ _ _ _ HK k H H0) as Hm.
      assert (Hq : (Z.to_nat (kp ker k) < n)%nat).
      { destruct (ki_piv _ _ _ _ HK k H H0) as [Q _]. apply on_nz in Q. apply (alA_lt rad). tauto. }
      unfold pv. rewrite Hm1; auto.
    - destruct (Knew k H) as (j & J1 & _ & _ & J2 & _ & _). rewrite J2, Nat2Z.id. apply Hjal; auto. }
  assert (Hrange2 : forall k, (k < length ker2)%nat -> kp ker2 k = -1 \/ 0 <= kp ker2 k).
  { intros k Hk. destruct (Hcase k Hk) as [H|H].
    - rewrite Kp_old by auto. apply (ki_range _ _ _ _ HK); auto.
    - destruct (Knew k H) as (j & J1 & _ & _ & J2 & _ & _). lia. }
  assert (Hsupp2 : forall k i, (k < length ker2)%nat -> ~ cong p (fK ker2 k i) 0 -> (i < n)%nat /\ bA i <= kb ker2 k).
  { intros k i Hk Hn. destruct (Hcase k Hk) as [H|H].
    - rewrite K_old, Kb_old in * by auto. apply (ki_supp _ _ _ _ HK); auto.
    - destruct (Knew k H) as (j & J1 & _ & J4 & J2 & J3 & _). rewrite J3, J4 in *. destruct (Hjal j J1) as (A1 & A2 & A3 & A4 & A5).
      destruct (HT j A1) as [T1 T2]. specialize (T1 i Hn). split; [lia|]. pose proof (Hsort i j T1 A1). lia. }
  assert (Hkk2 : forall k r, (k < length ker2)%nat -> kb ker2 k <= r -> zon p (alB r) (lc n (on (alA r) (fK ker2 k)) (fF F))).
  { intros k r Hk Hr. destruct (Hcase k Hk) as [H|H].
    - rewrite K_old, Kb_old in * by auto. apply (ki_ker _ _ _ _ HK); auto.
    - assert (Hsk := fun i => Hsupp2 k i Hk).
      destruct (Knew k H) as (j & J1 & _ & J4 & J2 & J3 & _). rewrite J3, J4 in *. destruct (Hjal j J1) as (A1 & A2 & A3 & A4 & A5).
      apply (ker_persist (fT ims2 j) rad r); auto.
      + intros i Hi Hn. apply (Hsk i Hn).
      + apply (zon_cong p (alB rad) (fC ims2 j)); [|apply Hzero; auto].
        intros i Hi. rewrite (HFT j A1 A3 i). symmetry. apply restrict_image; auto. intros x Hx Hn. apply (Hsk x Hn). }
  assert (Hmono2 : forall i k, (i <= k)%nat -> (k < length ker2)%nat -> kb ker2 i <= kb ker2 k).
  { intros i k Hik Hk. destruct (Hcase k Hk) as [H|H].
    - rewrite !Kb_old by lia. apply (ki_mono _ _ _ _ HK); auto.
    - destruct (Knew k H) as (j & _ & _ & J4 & _). rewrite J4. destruct (Hcase i ltac:(lia)) as [H'|H'].
      + rewrite Kb_old by auto. specialize (Kb_le i H'). lia.
      + destruct (Knew i H') as (j' & _ & _ & J4' & _). lia. }
  assert (Hdist2 : forall i j, (i < length ker2)%nat -> (j < length ker2)%nat -> i <> j -> 0 <= kp ker2 i -> kp ker2 i <> kp ker2 j).
  { assert (Hon : forall i j, (i < length ker)%nat -> (length ker <= j < length ker2)%nat -> 0 <= kp ker2 i -> kp ker2 i <> kp ker2 j).
    { intros i j Hi Hj' H0 Eq. rewrite Kp_old in * by auto. pose proof (ki_pim _ _ _ _ HK i Hi H0) as Hm.
      destruct (Knew j Hj') as (l & J1 & _ & _ & J2 & _). rewrite Eq, J2, Nat2Z.id in Hm. destruct (Hjal l J1) as (_ & _ & A3 & _). contradiction. }
    intros i j Hi Hj' Hij H0. destruct (Hcase i Hi) as [Hi'|Hi']; destruct (Hcase j Hj') as [Hj''|Hj''].
    - rewrite !Kp_old in * by auto. apply (ki_dist _ _ _ _ HK); auto.
    - apply Hon; auto.
    - intros Eq. apply (Hon j i); auto. lia.
    - destruct (Knew i Hi') as (l & J1 & J0 & _ & J2 & _). destruct (Knew j Hj'') as (l' & J1' & J0' & _ & J2' & _).
      rewrite J2, J2'. intros Eq. apply Nat2Z.inj in Eq. subst l'. apply Hij.
      assert (NoDup js) by (apply sorted_lt_NoDup; auto).
      assert ((i - length ker)%nat = (j - length ker)%nat); [|lia].
      apply (proj1 (NoDup_nth js 0%nat) H); lia. }
  assert (Hzero2 : forall k, (k < length ker2)%nat -> kp ker2 k = -1 -> zon p (alA rad) (fK ker2 k)).
  { intros k Hk Hm. destruct (Hcase k Hk) as [H|H].
    - rewrite K_old, Kp_old in * by auto. apply (ki_zero _ _ _ _ HK); auto.
    - destruct (Knew k H) as (j & J1 & _ & _ & J2 & _ & _). lia. }
  assert (Hkd2 : forall k, (k < length ker2)%nat -> kp ker2 k = -1 -> kb ker2 k < kd ker2 k <= rad).
  { intros k Hk Hm. destruct (Hcase k Hk) as [H|H].
    - rewrite Kb_old, Kd_old, Kp_old in * by auto. apply (ki_kd _ _ _ _ HK); auto.
    - destruct (Knew k H) as (j & J1 & _ & _ & J2 & _ & _). lia. }
  assert (Hcov2 : covers rad ims2 ker2).
  { intros j Hja. pose proof (alA_lt rad j Hja) as Hjn. destruct (Hrange j Hjn) as [R|[R|R]]; auto.
    - apply Hborn in R; auto. apply alive_iff in Hja. lia.
    - right. destruct (Z.eq_dec (pv ims j) (-1)) as [Em|Em].
      + destruct (Hcov j Hja Em) as (k & Hk & Ekk). exists k. split; [lia|]. rewrite Kp_old; auto.
      + assert (Hin : In j js). { apply Hj. repeat split; auto. rewrite HdyA. apply alive_iff in Hja. lia. }
        apply In_nth with (d := 0%nat) in Hin. destruct Hin as (t & Ht & Et).
        exists (length ker + t)%nat. split; [lia|]. destruct (Knew (length ker + t)%nat ltac:(lia)) as (l & J1 & J0 & _ & J2 & _).
        rewrite J2. f_equal. rewrite <- J0, <- Et. f_equal. lia. }
  assert (Hin2 : forall r, In r done -> indep p (alA r) (length ker2) (fK ker2) (fun k => kb ker2 k <=? r)).
  { intros r Hr c Hc Hz k Hk.
    assert (Hc0 : forall l, (length ker <= l < length ker2)%nat -> cong p (c l) 0).
    { intros l Hl. destruct (cong_dec p (c l) 0) as [|Hn]; auto. destruct (Hc l ltac:(lia) Hn) as [Ho _]. apply Z.leb_le in Ho.
      destruct (Knew l Hl) as (j & _ & _ & J4 & _). specialize (N2 r Hr). lia. }
    destruct (Hcase k Hk) as [H|H]; [|apply Hc0; auto].
    apply (ki_indep _ _ _ _ HK r Hr c); auto.
    - intros j Hj' Hn. destruct (Hc j ltac:(lia) Hn) as [H1 H2]. rewrite Kb_old, K_old in * by auto. auto.
    - apply (zon_cong p (alA r) (lc (length ker2) c (fK ker2))); auto. intros i _.
      rewrite (lc_extend p (length ker2) (length ker) c (fK ker2) i); [|lia|auto].
      apply lc_cong; [reflexivity|]. intros l Hl. rewrite K_old by auto. reflexivity. }
  assert (Hkirad : indep p (alA rad) (length ker2) (fK ker2) (fun k => kb ker2 k <=? rad)).
  { apply (indep_piv p (alA rad) Hp (length ker2) (fK ker2) _ (fun k => Z.to_nat (kp ker2 k))).
    - intros k Hk _. destruct (Hrange2 k Hk) as [R|R]; auto.
    - intros i j Hi Hj' _ _ Hn Hn' Eq. destruct (Nat.eq_dec i j) as [|Hij]; auto. exfalso.
      destruct (Hrange2 i Hi) as [R|R]; [apply Hn; auto|]. destruct (Hrange2 j Hj') as [R'|R']; [apply Hn'; auto|].
      apply (Hdist2 i j Hi Hj' Hij R). lia. }
  assert (Hsprad : forall q x, (forall i, ~ cong p (x i) 0 -> alA rad i = true /\ (i < q)%nat) -> zon p (alB rad) (lc n x (fF F)) ->
     gens p (alA rad) (length ker2) (fK ker2) (fun k => kb ker2 k <=? rad) x).
  { induction q as [|q IH]; intros x Hx Hz.
    - exists (fun _ => 0). split; [intros j _ Hn; elim Hn; reflexivity|]. intros i _. unfold lc. rewrite Zsum_0 by (intros; ring).
      destruct (cong_dec p (x i) 0) as [|Hn]; auto. destruct (Hx i Hn). lia.
    - destruct (cong_dec p (x q) 0) as [E0|E0].
      { apply IH; auto. intros i Hn. destruct (Hx i Hn). split; auto. assert (i <> q) by congruence. lia. }
      destruct (Hx q E0) as [Hqa _]. pose proof (alA_lt rad q Hqa) as Hqn.
      destruct (Hcov2 q Hqa) as [Hc|(k & Hk & Ekq)].
      { exfalso. destruct (solve_C (done ++ [rad]) rad rad ims2 q x HImInv Hqn) as (w & W1 & W2 & W3).
        { intros i Hn. destruct (Hx i Hn). lia. }
        apply (W3 E0). apply (indep_use p m (alB rad) Hp (alB_lt rad) n (fC ims2) (fun j => bA j <=? rad) w HIrad); auto.
        - intros i Hi Hn. apply Z.leb_le. specialize (W1 i Hn). pose proof (Hsort i q W1 Hqn). apply alive_iff in Hqa. lia.
        - apply (zon_cong p (alB rad) (lc n x (fF F))); auto.
        - intros Hz'. destruct (Hpiv q Hqn Hc) as [Q _]. apply Q. apply Hz'. }
      destruct (Hpiv2 k Hk ltac:(lia)) as [Q1 Q2]. rewrite Ekq, Nat2Z.id in Q1, Q2.
      destruct (inv_exists p _ Hp Q1) as (a & Ha). unfold on in Q1, Ha. rewrite Hqa in Q1, Ha.
      set (x' := fun i => x i + (- (x q * a)) * on (alA rad) (fK ker2 k) i).
      assert (Hkr : kb ker2 k <= rad).
      { destruct (Hcase k Hk) as [H|H]; [rewrite Kb_old by auto; specialize (Kb_le k H); lia|]. destruct (Knew k H) as (j & _ & _ & J4 & _). lia. }
      destruct (IH x') as (c & Hc & Hcx).
      { intros i Hn. unfold x' in Hn.
        assert (Hia : alA rad i = true).
        { destruct (alA rad i) eqn:Ei; auto. elim Hn. unfold on. rewrite Ei.
          destruct (cong_dec p (x i) 0) as [E1|E1]; [rewrite E1; apply cong_eq; ring|]. destruct (Hx i E1). congruence. }
        split; auto. destruct (lt_eq_lt_dec i q) as [[H|H]|H]; auto; elim Hn.
        - subst i. unfold on. rewrite Hqa. replace (x q + - (x q * a) * fK ker2 k q) with (x q * (1 - a * fK ker2 k q)) by ring.
          rewrite Ha. apply cong_eq; ring.
        - rewrite (Q2 i H). destruct (cong_dec p (x i) 0) as [E1|E1]; [rewrite E1; apply cong_eq; unfold fzero; ring|]. destruct (Hx i E1). lia. }
      { apply (zon_cong p (alB rad) (fun i => lc n x (fF F) i + (- (x q * a)) * lc n (on (alA rad) (fK ker2 k)) (fF F) i)).
        - intros i _. rewrite <- lc_scale, <- lc_add. reflexivity.
        - apply zon_add; auto. apply zon_scale. apply Hkk2; auto. }
      exists (fun l => c l + (x q * a) * funit k l). split.
      + intros j Hj' Hn. destruct (Nat.eq_dec j k) as [->|Hjk]; [apply Z.leb_le; auto|]. apply Hc; auto.
        intros E1. apply Hn. rewrite E1. unfold funit. apply Nat.eqb_neq in Hjk. rewrite Hjk. apply cong_eq; ring.
      + intros i Hi. rewrite lc_add, lc_scale, lc_unit by auto. rewrite <- (Hcx i Hi). unfold x', on. rewrite Hi. apply cong_eq; ring. }
  split; [|split; [exact Hcov2|exact Hcnt]].
  constructor; auto.
  - intros k Hk. destruct (Hcase k Hk) as [H|H].
    + rewrite Hold by auto. apply (ki_wf _ _ _ _ HK); auto.
    + destruct (Knew k H) as (j & J1 & _ & _ & _ & _ & J5). rewrite J5. destruct (Hjal j J1) as (A1 & _).
      destruct (ii_wf _ _ _ _ HImInv j A1) as (_ & W2 & _ & W4). split; auto.
  - intros k Hk. apply in_or_app. destruct (Hcase k Hk) as [H|H].
    + left. rewrite Kb_old by auto. apply (ki_birth _ _ _ _ HK); auto.
    + right. destruct (Knew k H) as (j & _ & _ & J4 & _). left. auto.
  - intros k r Hk Hm Hr Hkr. destruct (Hdone r Hr) as [H| ->].
    + destruct (Hcase k Hk) as [H'|H'].
      * rewrite K_old, Kd_old, Kb_old, Kp_old in * by auto. apply (ki_alive _ _ _ _ HK); auto.
      * destruct (Knew k H') as (j & _ & _ & _ & J2 & _). lia.
    + pose proof (Hkd2 k Hk Hm). split; [lia|]. intros _. apply Hzero2; auto.
  - intros r Hr. destruct (Hdone r Hr) as [H| ->]; auto.
  - intros r x Hr Hx Hz. destruct (Hdone r Hr) as [H| ->].
    + destruct (ki_span _ _ _ _ HK r x H Hx Hz) as (c & Hc & Hcx).
      exists (fun k => if Nat.ltb k (length ker) then c k else 0). split.
      * intros j Hj' Hn. destruct (Nat.ltb_spec j (length ker)) as [Hl|Hl]; [|elim Hn; reflexivity]. rewrite Kb_old; auto.
      * intros i Hi. rewrite (Hcx i Hi).
        rewrite (lc_extend p (length ker2) (length ker) _ (fK ker2) i); [|lia|].
        -- apply lc_cong.
           ++ intros k Hk. destruct (Nat.ltb_spec k (length ker)); [reflexivity|lia].
           ++ intros k Hk. rewrite K_old by auto. reflexivity.
        -- intros l Hl. destruct (Nat.ltb_spec l (length ker)); [lia|reflexivity].
    + apply (Hsprad n); auto. intros i Hn. split; auto. apply (alA_lt rad). auto.
Qed.
End ImStep.
End Inv.
