(** * Proofs about [gauss_col_rad] and [gauss_barcodes]. *)
From Verif Require Import Base ListX Lin Gauss_model Gauss_arith Gauss_col Gauss_solve.
From Coq Require Import Znumtheory.
Local Open Scope Z_scope.

Lemma rad_scan_inv p rj i first (P : vec -> vec -> Prop) : forall r t r' t',
  (forall r t rk tk radk inv, P r t -> In (rk, tk, radk) first -> radk <= rj -> last_nonzero rk i ->
     inv_mod_p (vget rk i) p = Ok inv ->
     P (elim p ((vget r i * inv) mod p) r rk) (elim p ((vget r i * inv) mod p) t tk)) ->
  P r t ->
  rad_scan first r t rj (Z.of_nat i) p = Ok (r', t') -> P r' t'.
Proof.
  induction first as [|[[rk tk] radk] first IH]; intros r t r' t' Hs H0; cbn [rad_scan].
  - intros E; injection E as <- <-; auto.
  - destruct ((radk <=? rj) && (index_pivot rk =? Z.of_nat i)) eqn:Ec.
    + apply andb_prop in Ec. destruct Ec as [Ec1 Ec2]. apply Z.leb_le in Ec1. apply Z.eqb_eq in Ec2.
      apply index_pivot_iff in Ec2. rewrite Nat2Z.id.
      destruct (inv_mod_p (vget rk i) p) as [inv|] eqn:Hinv; [|discriminate]. cbn [bind].
      fold (elim p ((vget r i * inv) mod p) r rk). fold (elim p ((vget r i * inv) mod p) t tk).
      assert (H1 : P (elim p ((vget r i * inv) mod p) r rk) (elim p ((vget r i * inv) mod p) t tk)).
      { apply (Hs r t rk tk radk); auto. left; auto. }
      destruct (vany _).
      * intros E; injection E as <- <-; auto.
      * apply IH; auto. intros. eapply Hs; eauto. right; eauto.
    + apply IH; auto. intros. eapply Hs; eauto. right; eauto.
Qed.

(** Once the column is zero the rest of the scan leaves it zero. *)
Lemma rad_scan_zero p rj i m first : forall r t r' t',
  (forall rk tk radk, In (rk, tk, radk) first -> length rk = m) -> length r = m ->
  (forall a, vget r a = 0) ->
  rad_scan first r t rj (Z.of_nat i) p = Ok (r', t') -> forall a, vget r' a = 0.
Proof.
  intros r t r' t' Hl Hr Hz E.
  apply (rad_scan_inv p rj i first (fun r _ => length r = m /\ forall a, vget r a = 0)) in E; auto.
  - apply E.
  - intros r0 t0 rk tk radk inv [H1 H2] Hin _ _ _.
    assert (L : length r0 = length rk) by (rewrite (Hl rk tk radk); auto).
    split; [rewrite elim_length; auto|].
    intros a. rewrite vget_elim by auto. rewrite !H2. rewrite Z.mul_0_l, Zmod_0_l'. reflexivity.
Qed.

(** Either a usable column with the right pivot exists and the pivot goes down,
    or nothing changes. *)
Lemma rad_scan_pivot p rj i m first : forall r t r' t',
  (forall rk tk radk, In (rk, tk, radk) first -> length rk = m) -> length r = m ->
  last_nonzero r i ->
  rad_scan first r t rj (Z.of_nat i) p = Ok (r', t') ->
  index_pivot r' < Z.of_nat i \/
  (r' = r /\ t' = t /\ forall rk tk radk, In (rk, tk, radk) first -> radk <= rj -> ~ last_nonzero rk i).
Proof.
  induction first as [|[[rk tk] radk] first IH]; intros r t r' t' Hl Hr Hi; cbn [rad_scan].
  - intros E; injection E as <- <-. right. repeat split; auto.
  - destruct ((radk <=? rj) && (index_pivot rk =? Z.of_nat i)) eqn:Ec.
    + apply andb_prop in Ec. destruct Ec as [Ec1 Ec2]. apply Z.leb_le in Ec1. apply Z.eqb_eq in Ec2.
      apply index_pivot_iff in Ec2. rewrite Nat2Z.id.
      destruct (inv_mod_p (vget rk i) p) as [inv|] eqn:Hinv; [|discriminate]. cbn [bind].
      fold (elim p ((vget r i * inv) mod p) r rk). fold (elim p ((vget r i * inv) mod p) t tk).
      assert (L : length r = length rk) by (rewrite (Hl rk tk radk); auto; left; auto).
      pose proof (elim_pivot_lt p r rk i inv L Hi Ec2 Hinv) as Hlt.
      destruct (vany _) eqn:Ev.
      * intros E; injection E as <- <-. left. exact Hlt.
      * intros E. left. assert (Z' : index_pivot r' = -1); [|lia].
        apply index_pivot_m1. eapply (rad_scan_zero p rj i m first); [| | |exact E].
        -- intros. eapply Hl. right; eauto.
        -- rewrite elim_length; auto.
        -- apply vany_false. auto.
    + intros E. destruct (IH r t r' t') as [H|(H1 & H2 & H3)]; auto.
      { intros. eapply Hl. right; eauto. }
      right. repeat split; auto. intros rk' tk' radk' [Hin|Hin] Hle Hn.
      * injection Hin as -> -> ->. apply index_pivot_iff in Hn.
        rewrite Hn, Z.eqb_refl in Ec. destruct (Z.leb_spec radk' rj); [discriminate|lia].
      * apply (H3 rk' tk' radk'); auto.
Qed.

Lemma rad_scan_total p rj i first : prime p ->
  (forall rk tk radk, In (rk, tk, radk) first -> rng p rk) -> forall r t,
  exists r' t', rad_scan first r t rj (Z.of_nat i) p = Ok (r', t').
Proof.
  intros Hp. induction first as [|[[rk tk] radk] first IH]; intros Hr r t; cbn [rad_scan]; eauto.
  assert (Hr' : forall rk tk radk, In (rk, tk, radk) first -> rng p rk).
  { intros. eapply Hr. right; eauto. }
  destruct ((radk <=? rj) && (index_pivot rk =? Z.of_nat i)) eqn:Ec; auto.
  apply andb_prop in Ec. destruct Ec as [Ec1 Ec2]. apply Z.eqb_eq in Ec2.
  apply index_pivot_iff in Ec2. rewrite Nat2Z.id.
  assert (Hrk : rng p rk) by (eapply Hr; left; eauto).
  destruct (inv_mod_p_prime (vget rk i) p Hp) as (inv & Hinv & _).
  { destruct Ec2 as (_ & Hnz & _). specialize (Hrk i). lia. }
  { destruct Ec2 as (_ & Hnz & _). specialize (Hrk i). intros D. apply Z.divide_pos_le in D; lia. }
  rewrite Hinv. cbn [bind]. destruct (vany _); eauto.
Qed.

Lemma rad_while_inv p rj m first (P : vec -> vec -> Prop) fuel : forall r t r' t',
  (forall r t rk tk radk i inv, P r t -> In (rk, tk, radk) first -> radk <= rj -> last_nonzero rk i ->
     inv_mod_p (vget rk i) p = Ok inv ->
     P (elim p ((vget r i * inv) mod p) r rk) (elim p ((vget r i * inv) mod p) t tk)) ->
  (forall rk tk radk, In (rk, tk, radk) first -> length rk = m) ->
  P r t ->
  rad_while fuel first r t rj (index_pivot r) p = Ok (r', t') ->
  P r' t' /\ forall a, vget r' a = 0.
Proof.
  induction fuel as [|f IH]; intros r t r' t' Hs Hl H0; cbn [rad_while]; [discriminate|].
  destruct (Z.gtb_spec (index_pivot r) (-1)) as [Hpv|Hpv].
  - destruct (index_pivot_cases r) as [[_ Er]|(i & Hi & Er)]; [lia|]. rewrite Er.
    destruct (rad_scan first r t rj (Z.of_nat i) p) as [[r1 t1]|] eqn:Es; [|discriminate]. cbn [bind].
    assert (H1 : P r1 t1).
    { apply (rad_scan_inv p rj i first P r t); auto. intros. eapply Hs; eauto. }
    destruct (negb (index_pivot r1 =? Z.of_nat i)); [|discriminate]. apply IH; auto.
  - intros E; injection E as <- <-. split; auto. apply index_pivot_m1. pose proof (index_pivot_ge r). lia.
Qed.

(** Completeness of the while loop: if the span of usable columns always offers the pivot. *)
Lemma rad_while_total p rj m first (P : vec -> vec -> Prop) : prime p ->
  (forall r t rk tk radk i inv, P r t -> In (rk, tk, radk) first -> radk <= rj -> last_nonzero rk i ->
     inv_mod_p (vget rk i) p = Ok inv ->
     P (elim p ((vget r i * inv) mod p) r rk) (elim p ((vget r i * inv) mod p) t tk)) ->
  (forall rk tk radk, In (rk, tk, radk) first -> length rk = m /\ rng p rk) ->
  (forall r t, P r t -> length r = m) ->
  (forall r t i, P r t -> last_nonzero r i ->
     exists rk tk radk, In (rk, tk, radk) first /\ radk <= rj /\ last_nonzero rk i) ->
  forall fuel r t, P r t -> (Z.to_nat (index_pivot r + 1) < fuel)%nat ->
  exists r' t', rad_while fuel first r t rj (index_pivot r) p = Ok (r', t').
Proof.
  intros Hp Hs Hf HPl Hex. induction fuel as [|f IH]; intros r t H0 Hfu; [lia|]. cbn [rad_while].
  destruct (Z.gtb_spec (index_pivot r) (-1)) as [Hpv|Hpv]; [|eauto].
  destruct (index_pivot_cases r) as [[_ Er]|(i & Hi & Er)]; [lia|]. rewrite Er in *.
  destruct (rad_scan_total p rj i first Hp (fun rk tk radk H => proj2 (Hf rk tk radk H)) r t) as (r1 & t1 & E).
  rewrite E. cbn [bind].
  destruct (rad_scan_pivot p rj i m first r t r1 t1) as [H|(_ & _ & Hno)]; auto.
  - intros. eapply Hf; eauto.
  - apply HPl with t; auto.
  - destruct (Z.eqb_spec (index_pivot r1) (Z.of_nat i)); [lia|]. cbn [negb].
    apply IH.
    + apply (rad_scan_inv p rj i first P r t); auto. intros. eapply Hs; eauto.
    + pose proof (index_pivot_ge r1). lia.
  - exfalso. destruct (Hex r t i H0 Hi) as (rk & tk & radk & H1 & H2 & H3). apply (Hno rk tk radk); auto.
Qed.

Lemma rad_while_err p rj m first fuel : prime p ->
  (forall rk tk radk, In (rk, tk, radk) first -> length rk = m /\ rng p rk) ->
  forall r t e, length r = m -> (Z.to_nat (index_pivot r + 1) < fuel)%nat ->
  rad_while fuel first r t rj (index_pivot r) p = Err e -> e = RuntimeError.
Proof.
  intros Hp Hf. induction fuel as [|f IH]; intros r t e Hr Hfu; [lia|]. cbn [rad_while].
  destruct (Z.gtb_spec (index_pivot r) (-1)) as [Hpv|Hpv]; [|discriminate].
  destruct (index_pivot_cases r) as [[_ Er]|(i & Hi & Er)]; [lia|]. rewrite Er in *.
  destruct (rad_scan_total p rj i first Hp (fun rk tk radk H => proj2 (Hf rk tk radk H)) r t) as (r1 & t1 & E).
  rewrite E. cbn [bind].
  destruct (Z.eqb_spec (index_pivot r1) (Z.of_nat i)) as [He|He]; cbn [negb].
  - intros X; injection X as <-; auto.
  - apply IH.
    + apply (rad_scan_inv p rj i first (fun r _ => length r = m) r t r1 t1); auto.
      intros r0 t0 rk tk radk inv H Hin _ _ _. rewrite elim_length; auto. rewrite H. symmetry. apply (Hf rk tk radk Hin).
    + destruct (rad_scan_pivot p rj i m first r t r1 t1) as [H|(-> & _)]; auto.
      { intros. eapply Hf; eauto. }
      { pose proof (index_pivot_ge r1). lia. }
      { congruence. }
Qed.

(** ** gauss_col_rad *)
Section Rad.
Variables (A : mat) (Rd : list Z) (s : nat) (p : Z).
Hypothesis HA : wf_mat A.
Hypothesis Hp2 : 2 <= p.
Let N := ncols A.
Hypothesis HRl : (N <= length Rd)%nat.
Let rad (k : nat) : Z := nth k Rd 0.
Let Ac (k : nat) : vec := vmod (col A k) p.

Definition rad_all : list (vec * vec * Z) :=
  combine (combine (cols (mmod A p)) (cols (mident N))) Rd.

Lemma rad_all_length : length rad_all = N.
Proof.
  unfold rad_all. rewrite !combine_length. unfold mmod, mident. cbn [cols].
  rewrite !map_length, seq_length. change (length (cols A)) with N.
  lia.
Qed.

Lemma rad_all_nth k : (k < N)%nat -> nth k rad_all ([], [], 0) = (Ac k, vunit N k, rad k).
Proof.
  intros Hk. unfold rad_all.
  assert (L1 : length (cols (mmod A p)) = N) by (unfold mmod; cbn [cols]; rewrite map_length; reflexivity).
  assert (L2 : length (cols (mident N)) = N) by (unfold mident; cbn [cols]; rewrite map_length, seq_length; reflexivity).
  assert (E : forall (l : list (vec * vec)) (l' : list Z), (k < length l)%nat -> (k < length l')%nat ->
     nth k (combine l l') ([], [], 0) = (nth k l ([], []), nth k l' 0)).
  { clear. revert k. intros k l. revert k. induction l as [|x l IH]; intros k l' H1 H2; simpl in H1; [lia|].
    destruct l' as [|y l']; simpl in H2; [lia|]. destruct k as [|k]; auto. simpl. apply IH; lia. }
  unfold vec in *. rewrite E by (rewrite ?combine_length; lia). rewrite combine_nth by lia.
  fold vec in *.
  change (nth k (cols (mident N)) []) with (col (mident N) k). rewrite nth_cols_mident by auto.
  unfold mmod. cbn [cols]. rewrite (nth_map (fun c => vmod c p) (cols A) k []) by auto. reflexivity.
Qed.

Lemma Ac_length k : (k < N)%nat -> length (Ac k) = nrows A.
Proof. intros H. unfold Ac, vmod. rewrite map_length. apply wf_col; auto. Qed.

Lemma Ac_rng k : rng p (Ac k).
Proof. intros i. unfold Ac. rewrite vget_vmod. apply Z.mod_pos_bound. lia. Qed.

Lemma Ac_cong k i : cong p (vget (Ac k) i) (get A i k).
Proof. unfold Ac. rewrite vget_vmod. apply cong_mod. Qed.

Lemma in_first rk tk radk : In (rk, tk, radk) (firstn s rad_all) ->
  exists k, (k < s)%nat /\ (k < N)%nat /\ rk = Ac k /\ tk = vunit N k /\ radk = rad k.
Proof.
  intros H. apply In_nth with (d := ([], [], 0)) in H. destruct H as (k & Hk & E).
  rewrite firstn_length, rad_all_length in Hk. rewrite nth_firstn in E by lia.
  rewrite rad_all_nth in E by lia. injection E as <- <- <-. exists k. repeat split; auto; lia.
Qed.

Lemma first_in k : (k < s)%nat -> (k < N)%nat -> In (Ac k, vunit N k, rad k) (firstn s rad_all).
Proof.
  intros H1 H2. rewrite <- rad_all_nth by auto. rewrite <- (nth_firstn rad_all s) by auto.
  apply nth_In. rewrite firstn_length, rad_all_length. lia.
Qed.

Definition usable (j k : nat) : Prop := (k < s)%nat /\ (k < N)%nat /\ rad k <= rad j.

(** Invariant for column [j >= s]. *)
Definition radW (j : nat) (r t : vec) : Prop :=
  length r = nrows A /\ length t = N /\ rng p r /\ rng p t /\
  veq p (vget r) (lc N (vget t) (fun k => vget (col A k))) /\
  vget t j = 1 /\ (forall k, k <> j -> vget t k <> 0 -> usable j k).

Lemma radW_init j : (j < N)%nat -> radW j (Ac j) (vunit N j).
Proof.
  intros Hj. unfold radW. split; [apply Ac_length; auto|]. split; [apply vunit_length|].
  split; [apply Ac_rng|]. split; [|split; [|split]].
  - intros i. rewrite vget_vunit by auto. destruct (Nat.eqb _ _); lia.
  - intros i. rewrite Ac_cong. rewrite (cong_eq p (get A i j) (lc N (funit j) (fun k => vget (col A k)) i)).
    + apply cong_eq. unfold lc. apply Zsum_ext. intros k Hk. unfold funit. rewrite vget_vunit; auto.
    + rewrite lc_unit by auto. reflexivity.
  - rewrite vget_vunit, Nat.eqb_refl; auto.
  - intros k Hk H. rewrite vget_vunit in H by auto. destruct (Nat.eqb_spec k j); congruence.
Qed.

Lemma radW_step j r t rk tk radk i inv : (s <= j < N)%nat -> radW j r t -> In (rk, tk, radk) (firstn s rad_all) ->
  radk <= rad j -> last_nonzero rk i -> inv_mod_p (vget rk i) p = Ok inv ->
  radW j (elim p ((vget r i * inv) mod p) r rk) (elim p ((vget r i * inv) mod p) t tk).
Proof.
  intros Hj (Hlr & Hlt & Hrr & Hrt & Hpr & Hdg & Hus) Hin Hle _ _.
  apply in_first in Hin. destruct Hin as (k & Hk & HkN & -> & -> & ->).
  set (q := (vget r i * inv) mod p).
  assert (Lr : length r = length (Ac k)) by (rewrite Ac_length; auto).
  assert (Lt : length t = length (vunit N k)) by (rewrite vunit_length; auto).
  unfold radW. split; [rewrite elim_length; auto|]. split; [rewrite elim_length; auto|].
  split; [apply rng_elim; auto; lia|]. split; [apply rng_elim; auto; lia|]. split; [|split].
  - intros a. rewrite vget_elim, cong_mod by auto. rewrite (Hpr a), Ac_cong.
    unfold get. rewrite <- (lc_unit N k (fun k => vget (col A k)) a) by auto.
    unfold lc. rewrite <- Zsum_scale, <- Zsum_sub.
    apply Zsum_cong. intros l Hl. rewrite vget_elim, cong_mod by auto. rewrite vget_vunit by auto.
    unfold funit. apply cong_eq; ring.
  - rewrite vget_elim by auto. rewrite vget_vunit by auto. destruct (Nat.eqb_spec j k); [lia|].
    rewrite Hdg, Z.mul_0_r, Z.sub_0_r. apply Z.mod_small; lia.
  - intros l Hl Hn. destruct (Nat.eq_dec l k) as [->|Hlk]; [repeat split; auto|].
    apply Hus; auto. intros E. apply Hn. rewrite vget_elim by auto. rewrite vget_vunit by auto.
    destruct (Nat.eqb_spec l k); [lia|]. rewrite E, Z.mul_0_r. reflexivity.
Qed.

Lemma rad_for_spec todo : forall out, rad_for (nrows A) (firstn s rad_all) todo p = Ok out ->
  length out = length todo /\
  forall a, (a < length todo)%nat ->
    let '(r, t, rj) := nth a todo ([], [], 0) in
    rad_while (S (S (nrows A))) (firstn s rad_all) r t rj (index_pivot r) p = Ok (nth a out ([], [])).
Proof.
  induction todo as [|[[r t] rj] todo IH]; intros out; cbn [rad_for].
  - intros E; injection E as <-. split; auto. simpl. intros; lia.
  - destruct (rad_while _ _ _ _ _ _ _) as [rt|] eqn:E; [|discriminate]. cbn [bind].
    destruct (rad_for _ _ _ _) as [rest|]; [|discriminate]. cbn [bind].
    intros H; injection H as <-. destruct (IH rest eq_refl) as [H1 H2].
    split; [simpl; lia|]. intros [|a] Ha; simpl.
    + exact E.
    + apply H2. simpl in Ha. lia.
Qed.

Lemma rad_for_total todo :
  (forall r t rj, In (r, t, rj) todo -> exists rt, rad_while (S (S (nrows A))) (firstn s rad_all) r t rj (index_pivot r) p = Ok rt) ->
  exists out, rad_for (nrows A) (firstn s rad_all) todo p = Ok out.
Proof.
  induction todo as [|[[r t] rj] todo IH]; intros H; cbn [rad_for]; eauto.
  destruct (H r t rj) as [rt E]; [left; auto|]. rewrite E. cbn [bind].
  destruct IH as [out E']; [intros; apply H; right; auto|]. rewrite E'. cbn [bind]. eauto.
Qed.

Lemma skipn_rad_nth a : (s + a < N)%nat ->
  nth a (skipn s rad_all) ([], [], 0) = (Ac (s + a), vunit N (s + a), rad (s + a)).
Proof. intros H. rewrite nth_skipn. apply rad_all_nth; auto. Qed.

Lemma gauss_col_rad_shape Red T : gauss_col_rad A Rd s p = Ok (Red, T) ->
  nrows Red = nrows A /\ ncols Red = N /\ nrows T = N /\ ncols T = N /\
  (forall j, (j < s)%nat -> (j < N)%nat -> col Red j = Ac j /\ col T j = vunit N j) /\
  (forall j, (s <= j < N)%nat -> radW j (col Red j) (col T j) /\ forall a, get Red a j = 0).
Proof.
  unfold gauss_col_rad. fold N. destruct (Nat.ltb_spec (length Rd) N); [lia|].
  fold rad_all. destruct (rad_for _ _ _ _) as [out|] eqn:E; [|discriminate]. cbn [bind].
  intros H1; injection H1 as <- <-.
  apply rad_for_spec in E. rewrite skipn_length, rad_all_length in E. destruct E as [EL E].
  assert (HL : length (map fst (firstn s rad_all) ++ out) = N).
  { rewrite app_length, map_length, firstn_length, rad_all_length, EL. lia. }
  assert (Hlow : forall j, (j < s)%nat -> (j < N)%nat ->
     nth j (map fst (firstn s rad_all) ++ out) ([], []) = (Ac j, vunit N j)).
  { intros j Hj HjN. rewrite app_nth1 by (rewrite map_length, firstn_length, rad_all_length; lia).
    rewrite (nth_map fst (firstn s rad_all) j (@nil Z, @nil Z, 0)) by (rewrite firstn_length, rad_all_length; lia).
    rewrite nth_firstn, rad_all_nth by lia. reflexivity. }
  assert (Hhigh : forall j, (s <= j < N)%nat ->
     nth j (map fst (firstn s rad_all) ++ out) ([], []) = nth (j - s) out ([], [])).
  { intros j Hj. assert (L : length (map fst (firstn s rad_all)) = s)
      by (rewrite map_length, firstn_length, rad_all_length; lia).
    rewrite app_nth2, L by lia. reflexivity. }
  split; [reflexivity|]. split; [unfold ncols; cbn [cols]; rewrite map_length; auto|].
  split; [reflexivity|]. split; [unfold ncols; cbn [cols]; rewrite map_length; auto|].
  split.
  - intros j Hj HjN. rewrite col_map_fst, col_map_snd. unfold dcol. rewrite Hlow by auto. auto.
  - intros j Hj. unfold get. rewrite col_map_fst, col_map_snd. unfold dcol. rewrite Hhigh by auto.
    specialize (E (j - s)%nat ltac:(lia)). rewrite skipn_rad_nth in E by lia.
    replace (s + (j - s))%nat with j in E by lia.
    destruct (nth (j - s) out ([], [])) as [r' t']. cbn [fst snd].
    apply (rad_while_inv p (rad j) (nrows A) (firstn s rad_all) (radW j)) in E.
    + apply E.
    + intros. eapply radW_step; eauto.
    + intros rk tk radk Hin. apply in_first in Hin. destruct Hin as (k & _ & Hk & -> & _). apply Ac_length; auto.
    + apply radW_init. lia.
Qed.

(** Completeness *)
Definition usableb (j k : nat) : bool := Nat.ltb k s && Nat.ltb k N && (rad k <=? rad j).
Lemma usableb_iff j k : usableb j k = true <-> usable j k.
Proof.
  unfold usableb, usable. rewrite !andb_true_iff, !Nat.ltb_lt, Z.leb_le. tauto.
Qed.

Definition nzc (k : nat) : bool := negb (index_pivot (Ac k) =? -1).

(** Representative: usable, nonzero, and first with its pivot. *)
Definition repb (j k : nat) : bool :=
  usableb j k && nzc k && forallb (fun l => negb (usableb j l && (index_pivot (Ac l) =? index_pivot (Ac k)))) (seq 0 k).

Hypothesis Hp : prime p.

Lemma repb_exists j k : usable j k -> nzc k = true ->
  exists l, repb j l = true /\ (l <= k)%nat /\ index_pivot (Ac l) = index_pivot (Ac k).
Proof.
  revert k. induction k as [k IH] using lt_wf_ind. intros Hu Hn.
  destruct (forallb (fun l => negb (usableb j l && (index_pivot (Ac l) =? index_pivot (Ac k)))) (seq 0 k)) eqn:Ef.
  - exists k. split; auto. unfold repb. apply usableb_iff in Hu. rewrite Hu, Hn, Ef. reflexivity.
  - assert (X : exists l, In l (seq 0 k) /\ usableb j l && (index_pivot (Ac l) =? index_pivot (Ac k)) = true).
    { clear - Ef. induction (seq 0 k) as [|x xs IHx]; simpl in Ef; [discriminate|].
      destruct (usableb j x && (index_pivot (Ac x) =? index_pivot (Ac k))) eqn:E.
      - exists x. split; auto. left; auto.
      - simpl in Ef. destruct (IHx Ef) as (l & Hl & El). exists l. split; auto. right; auto. }
    destruct X as (l & Hl & El). apply in_seq in Hl. apply andb_prop in El. destruct El as [E1 E2].
    apply Z.eqb_eq in E2. apply usableb_iff in E1.
    destruct (IH l) as (l' & H1 & H2 & H3); auto; try lia.
    + unfold nzc in *. rewrite E2. auto.
    + exists l'. split; [auto|]. split; [lia|congruence].
Qed.

Lemma gauss_col_rad_complete :
  (forall j, (s <= j < N)%nat ->
     (forall k l, usable j k -> usable j l -> index_pivot (Ac k) = index_pivot (Ac l) -> Ac k = Ac l) /\
     exists y, (forall k, ~ usable j k -> y k = 0) /\
               forall i, (i < nrows A)%nat -> cong p (Zsum (ncols A) (fun k => y k * get A i k)) (get A i j)) ->
  exists Red T, gauss_col_rad A Rd s p = Ok (Red, T).
Proof.
  intros H. unfold gauss_col_rad. fold N. destruct (Nat.ltb_spec (length Rd) N); [lia|].
  fold rad_all.
  destruct (rad_for_total (skipn s rad_all)) as [out E].
  2:{ rewrite E. cbn [bind]. eauto. }
  intros r t rj Hin. apply In_nth with (d := ([], [], 0)) in Hin. destruct Hin as (a & Ha & Ea).
  rewrite skipn_length, rad_all_length in Ha. rewrite skipn_rad_nth in Ea by lia.
  set (j := (s + a)%nat) in *. injection Ea as <- <- <-.
  destruct (H j ltac:(unfold j; lia)) as [Hpv (y & Hy0 & Hy)]. assert (Hj : (s <= j < N)%nat) by (unfold j; lia).
  destruct (rad_while_total p (rad j) (nrows A) (firstn s rad_all) (radW j) Hp) with
    (fuel := S (S (nrows A))) (r := Ac j) (t := vunit N j) as (r' & t' & E'); eauto.
  - intros. eapply radW_step; eauto.
  - intros rk tk radk Hin. apply in_first in Hin. destruct Hin as (k & _ & Hk & -> & _).
    split; [apply Ac_length; auto|apply Ac_rng].
  - intros r t W. apply W.
  - intros r t i (Hlr & Hlt & Hrr & Hrt & Hpr & Hdg & Hus) Hi.
    assert (Hsp : span p (fam N (repb j) (fun k => vget (Ac k))) (vget r)).
    { apply (span_incl p (fam N (usableb j) (fun k => vget (Ac k)))).
      { intros u (k & Hk & Hk' & ->). apply usableb_iff in Hk'.
        destruct (nzc k) eqn:Ez.
        - destruct (repb_exists j k Hk' Ez) as (l & H1 & H2 & H3).
          assert (E : Ac l = Ac k).
          { apply Hpv; auto. unfold repb in H1. apply usableb_iff. destruct (usableb j l); auto. }
          rewrite <- E. apply span_in. exists l. repeat split; auto; lia.
        - apply span_0. unfold nzc in Ez. destruct (Z.eqb_spec (index_pivot (Ac k)) (-1)) as [E|]; [|discriminate].
          intros x. rewrite (proj1 (index_pivot_m1 _) E x). reflexivity. }
      apply (span_veq p _ (lc N (fun k => (if Nat.eqb k j then 0 else vget t k) + y k) (fun k => vget (Ac k)))).
      { intros x. rewrite (Hpr x).
        destruct (lt_dec x (nrows A)) as [Hx|Hx].
        - transitivity (Zsum N (fun k => (if Nat.eqb k j then 0 else vget t k) * vget (col A k) x + y k * get A x k)).
          + apply Zsum_cong. intros k Hk. rewrite Ac_cong. apply cong_eq. unfold get. ring.
          + rewrite Zsum_add. pose proof (Hy x Hx) as Hyx. fold N in Hyx. rewrite Hyx.
            rewrite (Zsum_ext N (fun k => (if Nat.eqb k j then 0 else vget t k) * vget (col A k) x)
                (fun k => vget t k * vget (col A k) x - (if Nat.eqb k j then get A x j else 0))).
            * rewrite Zsum_sub. rewrite (Zsum_single N j (fun k => if Nat.eqb k j then get A x j else 0)).
              -- rewrite Nat.eqb_refl. apply cong_eq. unfold lc. ring.
              -- lia.
              -- intros l _ Hn. destruct (Nat.eqb_spec l j); congruence.
            * intros k Hk. destruct (Nat.eqb_spec k j) as [->|]; [|ring]. rewrite Hdg. unfold get. ring.
        - unfold lc. rewrite !Zsum_0; [reflexivity| |].
          + intros k Hk. change (vget (col A k) x) with (get A x k). rewrite get_wf_out by (auto; lia). ring.
          + intros k Hk. rewrite (vget_out (Ac k)) by (rewrite Ac_length; auto; lia). ring. }
      apply lc_in_span. intros k Hk Hu.
      assert (Hnu : ~ usable j k) by (rewrite <- usableb_iff, Hu; discriminate).
      rewrite (Hy0 k Hnu). destruct (Nat.eqb_spec k j) as [->|Hn]; [reflexivity|].
      destruct (Z.eq_dec (vget t k) 0) as [->|Hz]; [reflexivity|]. elim Hnu. auto. }
    destruct (piv_in_span p Hp N (repb j) (fun k => vget (Ac k)) (fun k => npiv (Ac k)) (vget r) i) as (k & Hk & Hr & Hpk); auto.
    + intros k Hk Hr. apply rng_piv; [apply Ac_rng|]. apply npiv_spec. unfold repb, nzc in Hr.
      destruct (Z.eqb_spec (index_pivot (Ac k)) (-1)); auto. cbn in Hr. rewrite andb_false_r in Hr. discriminate.
    + assert (W : forall k l, (k < l)%nat -> repb j k = true -> repb j l = true -> npiv (Ac k) = npiv (Ac l) -> False).
      { intros k l Hkl H1 H2 E. unfold repb in *.
        apply andb_prop in H1. destruct H1 as [H1 _]. apply andb_prop in H1. destruct H1 as [U1 Z1].
        apply andb_prop in H2. destruct H2 as [H2 F2]. apply andb_prop in H2. destruct H2 as [U2 Z2].
        rewrite forallb_forall in F2. specialize (F2 k ltac:(apply in_seq; lia)).
        rewrite U1 in F2. unfold nzc, npiv in *.
        pose proof (index_pivot_ge (Ac k)). pose proof (index_pivot_ge (Ac l)).
        destruct (Z.eqb_spec (index_pivot (Ac k)) (-1)); [discriminate|].
        destruct (Z.eqb_spec (index_pivot (Ac l)) (-1)); [discriminate|].
        destruct (Z.eqb_spec (index_pivot (Ac k)) (index_pivot (Ac l))); [discriminate|]. lia. }
      intros k l Hk Hl H1 H2 E. destruct (lt_eq_lt_dec k l) as [[X|X]|X]; auto; exfalso; eauto.
    + apply rng_piv; auto.
    + unfold repb in Hr. apply andb_prop in Hr. destruct Hr as [Hr _]. apply andb_prop in Hr. destruct Hr as [U Z1].
      apply usableb_iff in U. exists (Ac k), (vunit N k), (rad k). destruct U as (U1 & U2 & U3).
      split; [apply first_in; auto|]. split; auto. rewrite <- Hpk. apply npiv_spec.
      unfold nzc in Z1. destruct (Z.eqb_spec (index_pivot (Ac k)) (-1)); auto. discriminate.
  - apply radW_init. lia.
  - pose proof (index_pivot_bound (Ac j)). rewrite Ac_length in H1 by lia. lia.
Qed.

(** The only failure for prime [p] is [RuntimeError]. *)
Lemma gauss_col_rad_err e : gauss_col_rad A Rd s p = Err e -> e = RuntimeError.
Proof.
  unfold gauss_col_rad. fold N. destruct (Nat.ltb_spec (length Rd) N); [lia|]. fold rad_all.
  destruct (rad_for _ _ _ _) as [out|e'] eqn:E; [discriminate|]. cbn [bind]. intros X; injection X as ->.
  assert (G : forall todo, (forall r t rj, In (r, t, rj) todo -> length r = nrows A) ->
    rad_for (nrows A) (firstn s rad_all) todo p = Err e -> e = RuntimeError).
  { clear E. induction todo as [|[[r t] rj] todo IH]; intros Hl; cbn [rad_for]; [discriminate|].
    destruct (rad_while _ _ _ _ _ _ _) as [rt|e'] eqn:E; cbn [bind].
    - destruct (rad_for _ _ _ _) as [o|e'] eqn:E'; cbn [bind]; [discriminate|].
      intros X; injection X as ->. apply IH; auto. intros; eapply Hl; right; eauto.
    - intros X; injection X as ->. revert E. apply (rad_while_err p rj (nrows A)); auto.
      + intros rk tk radk Hin. apply in_first in Hin. destruct Hin as (k & _ & Hk & -> & _).
        split; [apply Ac_length; auto|apply Ac_rng].
      + eapply Hl. left; eauto.
      + pose proof (index_pivot_bound r). rewrite (Hl r t rj) in H0 by (left; auto). lia. }
  apply (G (skipn s rad_all)); auto.
  intros r t rj Hin. apply In_nth with (d := ([], [], 0)) in Hin. destruct Hin as (a & Ha & Ea).
  rewrite skipn_length, rad_all_length in Ha. rewrite skipn_rad_nth in Ea by lia.
  injection Ea as <- <- <-. apply Ac_length. lia.
Qed.

End Rad.
