(** * The main loop of [image_kernel] (relative case) *)
From Verif Require Import Base ListX SortX Lin Gauss_model Gauss_arith Gauss_col Basis_model Basis_props PH_model IK_model IK_pivot IK_lin IK_phase IK_kphase IK_inv IK_loop IK_rel IK_unit.
From Coq Require Import Znumtheory Sorting.Sorted.
Local Open Scope Z_scope.

Section RLoop.
Variables (p : Z) (A B : basis) (F : mat) (s : nat).
Notation n := (ncols F).
Notation m := (nrows F).
Notation bA := (lo A).
Notation dA := (hi A).
Notation bB := (lo B).
Notation dB := (hi B).
Notation alB := (alive m bB dB).
Hypothesis Hp : prime p.
Hypothesis HF : wf_mat F.
Hypothesis Hs : (0 < s)%nat.
Hypothesis HA : b_flat A = false.
Hypothesis HB : b_flat B = false.
Hypothesis HAd : b_dim A = length (b_bars A).
Hypothesis HBd : b_dim B = length (b_bars B).
Hypothesis HAn : b_dim A = n.
Hypothesis HBm : b_dim B = m.
Hypothesis Hbrk : b_brk B = None.
Hypothesis HbarA : forall i, (s <= i < n)%nat -> bA i < dA i.
Hypothesis Hsort : forall i j, (s <= i <= j)%nat -> (j < n)%nat -> bA i <= bA j.
Hypothesis Hbirth : forall j i, (j < n)%nat -> (i < m)%nat -> ~ cong p (fF F j i) 0 -> bB i <= bA j.
Hypothesis Hdeath : forall j i, (s <= j < n)%nat -> (i < m)%nat -> ~ cong p (fF F j i) 0 -> dB i <= dA j.
Hypothesis Hnn : forall j i, 0 <= fF F j i.

Notation RI := (RInv p F s bA dA bB dB).
Definition RI' (D done : list Z) (rho : Z) (st : list icol * list kcol) : Prop :=
  RI done rho (fst st) /\ snd st = [] /\ dI_in D (fst st) /\ (unit_tail p F s bA dA bB dB -> UInv p F s bA bB dB rho (fst st)).

Lemma kill_deaths D dyA rad ims : In rad D -> dI_in D ims -> dI_in D (map (rel_kill s dyA rad) (enum ims)).
Proof.
  intros Hr HD c Hc Hm. apply in_map_iff in Hc. destruct Hc as ([j c0] & <- & Hc). unfold enum in Hc. apply in_combine_r in Hc.
  unfold rel_kill in *. match goal with |- context[if ?b then _ else _] => destruct b end; cbn in *; auto.
Qed.

Lemma rel_step_inv D done rho rad st : In rad D -> RI' D done rho st -> next F bA dA bB dB done rho rad ->
  exists st', rad_step A B F p s st rad = Ok st' /\ RI' D (done ++ [rad]) rad st'.
Proof.
  destruct st as [ims ker]. intros HrD (HI & Hk & HD & HV) Hnx. cbn [fst snd] in *. subst ker.
  unfold rad_step.
  destruct (select_total A (fun x => (fst x <=? rad) && (rad <? snd x)) HA HAd) as (aA & EaA).
  destruct (select_total B (fun x => (fst x <=? rad) && (rad <? snd x)) HB HBd) as (aB & EaB).
  destruct (select_total A (fun x => snd x =? rad) HA HAd) as (dyA & EdA).
  destruct (select_total A (fun x => fst x =? rad) HA HAd) as (biA & EbA).
  destruct (select_total B (fun x => snd x =? rad) HB HBd) as (dyB & EdB).
  unfold active, death, birth. rewrite EaA, EaB, EdA, EbA, EdB. cbn [bind]. rewrite Hbrk. cbn [negb andb].
  destruct (Nat.eqb_spec s 0) as [|_]; [lia|]. cbn [bind].
  destruct (mem_active B m aB rad HBd HBm EaB) as [SB MB].
  apply select_spec in EdA, EbA, EdB. destruct EdA as [_ EdA], EbA as [_ EbA], EdB as [_ EdB].
  rewrite <- HAd in EdA, EbA. rewrite <- HBd in EdB. rewrite HAn in *. rewrite HBm in EdB.
  assert (HdA : forall i, In i dyA <-> (i < n)%nat /\ dA i = rad) by (intros i; rewrite EdA, Z.eqb_eq; reflexivity).
  assert (HbA : forall i, In i biA <-> (i < n)%nat /\ bA i = rad) by (intros i; rewrite EbA, Z.eqb_eq; reflexivity).
  assert (HdB : forall i, In i dyB <-> (i < m)%nat /\ dB i = rad) by (intros i; rewrite EdB, Z.eqb_eq; reflexivity).
  destruct (rel_phase_inv p F s bA dA bB dB Hp HF Hs HbarA Hsort Hbirth Hdeath done rho rad ims dyA HI Hnx HdA aB biA dyB) as (ims2 & np & ker2 & E & HI2 & Hk2); auto.
  rewrite E. cbn [bind]. exists (ims2, ker2). split; auto.
  assert (HV2 : unit_tail p F s bA dA bB dB -> UInv p F s bA bB dB rad ims2).
  { intros HU. apply (unit_step p F s bA dA bB dB Hp Hs HbarA Hsort Hbirth Hdeath HU done rho rad ims dyA aB biA dyB) with (newp := np) (ker2 := ker2) (cap := n); auto. }
  apply (im_fold_deaths F aB dyA biA dyB rad p s n false D) in E; auto; [|apply kill_deaths; auto|intros ? []|intros ? []]. cbn [fst snd] in E.
  unfold RI'. cbn [fst snd]. tauto.
Qed.

Lemma rel_loop_inv D rest : forall done rho st, incl rest D -> ends_in A B F (done ++ rest) -> StronglySorted Z.lt (done ++ rest) ->
  (forall r, In r done -> r <= rho) -> (forall r, In r rest -> rho < r) -> RI' D done rho st ->
  exists st' rho', foldM (rad_step A B F p s) rest st = Ok st' /\ RI' D (done ++ rest) rho' st' /\
    (forall r, In r (done ++ rest) -> r <= rho') /\ (rest = [] /\ rho' = rho \/ In rho' rest).
Proof.
  induction rest as [|rad rest IH]; intros done rho st HD He Hss Hd Hr HI.
  - rewrite app_nil_r in *. exists st, rho. cbn [foldM]. split; auto.
  - assert (Hgt : forall r, In r rest -> rad < r).
    { clear -Hss. induction done as [|x done IHd]; cbn in Hss.
      - apply StronglySorted_inv in Hss. rewrite <- Forall_forall. tauto.
      - apply IHd. apply StronglySorted_inv in Hss. tauto. }
    destruct (rel_step_inv D done rho rad st) as (st1 & E & HI1); auto.
    { apply HD. left. auto. }
    { assert (X : forall x, In x (done ++ rad :: rest) -> x <= rho \/ rad <= x).
      { intros x Hx. apply in_app_or in Hx. destruct Hx as [Hx|[<-|Hx]]; [left; auto|right; lia|right; apply Hgt in Hx; lia]. }
      destruct He as [HeA HeB]. split; [apply Hr; left; auto|]. split; [auto|].
      split; intros i Hi; [destruct (HeA i Hi)|destruct (HeB i Hi)]; auto. }
    destruct (IH (done ++ [rad]) rad st1) as (st' & rho' & E' & HI' & H1 & H2); auto.
    { intros x Hx. apply HD. right. auto. }
    { rewrite <- app_assoc. exact He. }
    { rewrite <- app_assoc. exact Hss. }
    { intros r Hin. apply in_app_or in Hin. destruct Hin as [Hin|[<-|[]]]; [|lia]. specialize (Hd r Hin). specialize (Hr rad ltac:(left; auto)). lia. }
    rewrite <- app_assoc in HI', H1. exists st', rho'. cbn [foldM]. rewrite E. cbn [bind]. split; auto. split; auto. split; auto.
    right. destruct H2 as [[_ ->]|H2]; [left; auto|right; auto].
Qed.

Lemma rel_init_inv D rho : (forall i, (i < n)%nat -> rho < bA i) -> RI' D [] rho (ims0 A F, []).
Proof.
  intros Hrho. assert (Hlen : length (ims0 A F) = n) by (unfold ims0; rewrite map_length, seq_length; auto).
  assert (Hnth : forall j, (j < n)%nat -> nth j (ims0 A F) dI = ICol (bA j) 0 (col F j) (vunit n j) (-2)) by (intros; apply nth_ims0; auto).
  assert (Hpv : forall j, (j < n)%nat -> pv (ims0 A F) j = -2) by (intros j Hj; unfold pv; rewrite Hnth; auto).
  assert (HT : forall j, (j < n)%nat -> forall i, fT (ims0 A F) j i = funit j i).
  { intros j Hj i. unfold fT. rewrite Hnth by auto. cbn [ic_T]. apply vget_vunit. auto. }
  assert (HC : forall j, (j < n)%nat -> forall i, fC (ims0 A F) j i = fF F j i).
  { intros j Hj i. unfold fC. rewrite Hnth by auto. reflexivity. }
  unfold RI'. cbn [fst snd]. split; [|split; [auto|split]].
  - constructor; auto; try (intros; rewrite Hpv in * by auto; lia); try (intros; rewrite Hpv in *; auto; lia); try (intros; exfalso; simpl in *; tauto).
    + intros j Hj. rewrite Hnth by auto. unfold wf_ic. cbn. split; [|split; [|split]].
      * apply wf_col; auto.
      * unfold vunit. rewrite map_length, seq_length. auto.
      * intros i. apply Hnn.
      * intros i. rewrite vget_vunit by auto. unfold funit. destruct (Nat.eqb i j); lia.
    + intros j Hj. rewrite Hnth by auto. reflexivity.
    + intros j Hj. specialize (Hrho j Hj). rewrite Hpv by auto. lia.
    + intros j Hj i. rewrite HC by auto. rewrite <- (lc_unit n j (fF F) i Hj) at 1. apply lc_cong; [|reflexivity].
      intros k Hk. rewrite HT by auto. reflexivity.
    + intros j i Hj Hn. rewrite HT in Hn by auto. destruct (tri_funit p j Hp) as [X _]. pose proof (X i Hn). split; auto.
      left. unfold funit in Hn. destruct (Nat.eqb_spec i j); auto. elim Hn. reflexivity.
    + intros j Hj _. rewrite HT by auto. apply (tri_funit p j Hp).
  - intros c Hc Hm. unfold ims0 in Hc. apply in_map_iff in Hc. destruct Hc as (j & <- & _). cbn in Hm. lia.
  - intros [Hn _]. constructor; intros j Hj; rewrite Hpv by lia; [|lia|lia|lia]. intros _ i. rewrite HT by lia. reflexivity.
Qed.

(** ** After the loop *)
Lemma rel_ends : ends_in A B F (radii A B).
Proof.
  unfold ends_in, radii, lo, hi. split; intros i Hi; split; apply zunique_In, in_or_app; [left|left|right|right]; apply changes_In; exists i;
    (split; [lia|auto]).
Qed.

Definition okf (ims : list icol) (r : Z) (j : nat) : bool := (Nat.leb s j && (bA j <=? r) && (r <? ic_death (nth j ims dI)))%bool.

Record rresult (ims : list icol) : Prop := {
  rr_len : length ims = n;
  rr_wf : forall j, (j < n)%nat -> wf_ic F (nth j ims dI);
  rr_piv : forall j, (j < n)%nat -> pv ims j = -1;
  rr_birth : forall j, (j < n)%nat -> ic_birth (nth j ims dI) = bA j;
  rr_FT : forall j, (j < n)%nat -> forall i, cong p (fC ims j i) (lc n (fT ims j) (fF F) i);
  rr_supp : forall j i, (j < n)%nat -> ~ cong p (fT ims j i) 0 -> (i <= j)%nat;
  rr_strip : forall j, (s <= j < n)%nat -> ic_death (nth j ims dI) <> dA j -> forall i, (i < s)%nat -> cong p (fT ims j i) 0;
  rr_unit : unit_tail p F s bA dA bB dB -> forall j, (j < m)%nat -> (forall i, (i < s)%nat -> cong p (fT ims (s + j) i) 0) /\
     NB p F s bA bB dB (ic_death (nth (s + j) ims dI)) (mv F s ims (s + j));
  rr_in : forall j, (j < n)%nat -> In (ic_death (nth j ims dI)) (radii A B);
  rr_q : forall r, qindep p (NB p F s bA bB dB r) n (mv F s ims) (okf ims r) /\
     forall i, (s <= i < n)%nat -> bA i <= r -> qgens p (NB p F s bA bB dB r) n (mv F s ims) (fun j => okf ims r j && Nat.leb j i)%bool (fF F i)
}.

Lemma rresult_of_inv rho ims : RI (radii A B) rho ims -> (unit_tail p F s bA dA bB dB -> UInv p F s bA bB dB rho ims) -> dI_in (radii A B) ims -> (forall x, In x (radii A B) -> x <= rho) -> rresult ims.
Proof.
  intros HI HV HDI Hrho. destruct rel_ends as [EA EB].
  assert (Hlen := ri_len _ _ _ _ _ _ _ _ _ _ HI).
  assert (Hpv : forall j, (j < n)%nat -> pv ims j = -1).
  { intros j Hj. destruct (EA j Hj) as [X Y]. apply Hrho in X, Y. destruct (ri_range _ _ _ _ _ _ _ _ _ _ HI j Hj) as [R|[R|R]]; auto.
    - apply (ri_unborn _ _ _ _ _ _ _ _ _ _ HI j Hj) in R. lia.
    - destruct (ri_piv _ _ _ _ _ _ _ _ _ _ HI j Hj R) as [Q _]. apply on_nz in Q. destruct Q as [Q _]. apply alive_iff in Q.
      destruct (EB (Z.to_nat (pv ims j)) ltac:(tauto)) as [_ Z0]. apply Hrho in Z0. lia. }
  assert (HID : forall j, (j < n)%nat -> In (ic_death (nth j ims dI)) (radii A B)).
  { intros j Hj. apply HDI; [apply nth_In; lia|]. apply Hpv; auto. }
  assert (Hr : forall r, (forall x, In x (radii A B) -> r < x) \/ exists r0, In r0 (radii A B) /\ forall x, In x (radii A B) -> (x <= r <-> x <= r0)).
  { intros r. destruct (existsb (fun x => x <=? r) (radii A B)) eqn:E.
    - right. apply existsb_exists in E. destruct E as (x & Hx & Hle). apply Z.leb_le in Hle.
      destruct (last_radius (radii A B) r) as (r0 & H1 & H2 & H3); [eauto|]. exists r0. split; auto. intros y Hy. split; auto. lia.
    - left. intros x Hx. destruct (Z_lt_le_dec r x) as [|Hle]; auto. assert (existsb (fun x => x <=? r) (radii A B) = true); [|congruence].
      apply existsb_exists. exists x. split; auto. apply Z.leb_le. auto. }
  constructor; auto; try apply HI.
  - intros j Hj Hne. apply (ri_strip _ _ _ _ _ _ _ _ _ _ HI j Hj); auto. apply Hpv. lia.
  - intros HU j Hj. assert (Hj' : (s + j < n)%nat) by (destruct HU; lia). specialize (HV HU). split.
    + apply (u_low _ _ _ _ _ _ _ _ HV j Hj). auto.
    + apply (u_dead _ _ _ _ _ _ _ _ HV j Hj). auto.
  - intros r. destruct (Hr r) as [H|(r0 & H0 & H)].
    + split.
      * intros c Hc _ j Hj. destruct (cong_dec p (c j) 0) as [|X]; auto. specialize (Hc j Hj X). unfold okf in Hc.
        apply andb_prop in Hc. destruct Hc as [Hc _]. apply andb_prop in Hc. destruct Hc as [_ Hc]. apply Z.leb_le in Hc.
        destruct (EA j Hj) as [Y _]. apply H in Y. lia.
      * intros i Hi Hb. destruct (EA i ltac:(lia)) as [Y _]. apply H in Y. lia.
    + assert (HalB : forall i, alB r i = alB r0 i).
      { intros i. apply Bool.eq_iff_eq_true. rewrite !alive_iff. split; intros (H1 & H2 & H3); destruct (EB i H1) as [X Y]; apply H in X, Y; lia. }
      assert (HNB : forall u, NB p F s bA bB dB r u <-> NB p F s bA bB dB r0 u).
      { intros u. split; intros (d & D1 & D2); exists d; (split; [intros i Hi Hn; destruct (D1 i Hi Hn) as [X Y]; split; auto; destruct (EA i Hi) as [Z0 _]; apply H in Z0; tauto|]);
          intros i Hi; apply D2; [rewrite HalB|rewrite <- HalB]; auto. }
      assert (Hok : forall j, (j < n)%nat -> (okf ims r j = true <-> okr s bA ims r0 j = true)).
      { intros j Hj. rewrite okr_iff. unfold okf. rewrite !andb_true_iff, Nat.leb_le, Z.leb_le, Z.ltb_lt.
        destruct (EA j Hj) as [X _]. pose proof (HID j Hj) as Y. apply H in X, Y. specialize (Hpv j Hj).
        split; [intros ((H1 & H2) & H3)|intros (H1 & H2 & H3)]; repeat split; auto; try tauto; try lia. }
      destruct (ri_past _ _ _ _ _ _ _ _ _ _ HI r0 H0) as [Q1 Q2]. split.
      * intros c Hc Hz. apply (Q1 c).
        -- intros j Hj Hn. apply Hok; auto.
        -- apply HNB. auto.
      * intros i Hi Hb. destruct (Q2 i Hi) as (c & C1 & C2).
        { apply H; auto. apply EA. lia. }
        exists c. split; [|apply HNB; auto]. intros j Hj Hn. specialize (C1 j Hj Hn). apply andb_true_iff in C1. apply andb_true_iff.
        split; [apply Hok; tauto|tauto].
Qed.

Lemma NB_lc r N c (W : nat -> fvec) : (forall k, (k < N)%nat -> cong p (c k) 0 \/ NB p F s bA bB dB r (W k)) -> NB p F s bA bB dB r (lc N c W).
Proof.
  intros HW.
  destruct (fin_choose (fun _ : nat => 0) N (fun k d => cong p (c k) 0 \/ (forall i, (i < n)%nat -> ~ cong p (d i) 0 -> (i < s)%nat /\ bA i <= r) /\
    forall i, alB r i = true -> cong p (W k i) (lc n d (fF F) i))) as (D & HD).
  { intros k Hk. destruct (HW k Hk) as [E|(d & Hd)]; [exists (fun _ => 0); left; auto|exists d; right; exact Hd]. }
  exists (fun i => lc N c D i). split.
  - intros i Hi Hn.
    assert (X : exists k, (k < N)%nat /\ ~ cong p (c k) 0 /\ ~ cong p (D k i) 0).
    { clear -Hn. revert Hn. unfold lc. induction N as [|N IH]; intros Hn; [elim Hn; reflexivity|]. cbn [Zsum] in Hn.
      destruct (cong_dec p (c N) 0) as [E|E]; [|destruct (cong_dec p (D N i) 0) as [E'|E']].
      - destruct IH as (k & Hk & X); [intros Y; apply Hn; rewrite Y, E; apply cong_eq; ring|]. exists k. split; [lia|auto].
      - destruct IH as (k & Hk & X); [intros Y; apply Hn; rewrite Y, E'; apply cong_eq; ring|]. exists k. split; [lia|auto].
      - exists N. auto. }
    destruct X as (k & Hk & X1 & X2). destruct (HD k Hk) as [|[X3 _]]; [contradiction|]. apply X3; auto.
  - intros i Hi. change (lc n (fun i0 => lc N c D i0) (fF F) i) with (lc n (lc N c D) (fF F) i). rewrite lc_lc.
    unfold lc at 1 2. apply Zsum_cong. intros k Hk. destruct (HD k Hk) as [E|[_ X]]; [rewrite E; apply cong_eq; ring|]. rewrite (X i Hi). reflexivity.
Qed.

Lemma qgens_lc r V ok N c (W : nat -> fvec) : (forall k, (k < N)%nat -> cong p (c k) 0 \/ qgens p (NB p F s bA bB dB r) n V ok (W k)) ->
  qgens p (NB p F s bA bB dB r) n V ok (lc N c W).
Proof.
  intros HW.
  destruct (fin_choose (fun _ : nat => 0) N (fun k d => cong p (c k) 0 /\ d = (fun _ => 0) \/ (forall j, (j < n)%nat -> ~ cong p (d j) 0 -> ok j = true) /\
    NB p F s bA bB dB r (fun i => W k i - lc n d V i))) as (D & HD).
  { intros k Hk. destruct (HW k Hk) as [E|(d & Hd)]; [exists (fun _ => 0); left; auto|exists d; right; exact Hd]. }
  exists (lc N c D). split.
  - intros j Hj Hn. destruct (ok j) eqn:E; auto. elim Hn. apply lc_cong0. intros k Hk. destruct (HD k Hk) as [[_ ->]|[X _]]; [apply cong_eq; ring|].
    destruct (cong_dec p (D k j) 0) as [E'|E']; [rewrite E'; apply cong_eq; ring|]. apply (X j Hj) in E'. congruence.
  - apply (NB_cong p F s bA bB dB r) with (u := lc N c (fun k i => W k i - lc n (D k) V i)).
    + intros i. rewrite lc_lc. unfold lc at 1 3 4. rewrite <- Zsum_sub. apply cong_eq. apply Zsum_ext. intros; ring.
    + apply NB_lc. intros k Hk. destruct (HD k Hk) as [[E _]|[_ X]]; auto.
Qed.

(** A column whose bar has ended is, up to the columns before [s], a combination of earlier columns whose bars go on. *)
Lemma rr_dead ims : rresult ims -> forall r j, (s <= j < n)%nat -> bA j <= r -> ic_death (nth j ims dI) <= r ->
  qgens p (NB p F s bA bB dB r) n (mv F s ims) (fun l => okf ims r l && Nat.ltb l j)%bool (mv F s ims j).
Proof.
  intros R r j Hj Hb Hd. destruct (rr_q _ R r) as [_ Hg].
  assert (X : forall i, (i < n)%nat -> cong p (cut s (fT ims j) i) 0 \/
    qgens p (NB p F s bA bB dB r) n (mv F s ims) (fun l => okf ims r l && Nat.ltb l j)%bool (fF F i)).
  { intros i Hi. destruct (cong_dec p (cut s (fT ims j) i) 0) as [E|E]; [left; auto|right]. apply cut_nz in E. destruct E as [E1 E2].
    apply (rr_supp _ R) in E2; [|lia]. pose proof (Hsort i j ltac:(lia) ltac:(lia)).
    apply (qgens_ok p (NB p F s bA bB dB r) n (mv F s ims) (fun l => okf ims r l && Nat.leb l i)%bool); [|apply Hg; [lia|lia]].
    intros l Hl Hok. apply andb_true_iff in Hok. destruct Hok as [Hok Hli]. apply Nat.leb_le in Hli. rewrite Hok. cbn [andb]. apply Nat.ltb_lt.
    destruct (Nat.eq_dec l j) as [->|]; [|lia]. unfold okf in Hok. rewrite !andb_true_iff, Z.ltb_lt in Hok. lia. }
  unfold mv at 2. apply qgens_lc. exact X.
Qed.

Lemma rel_loop_result : exists ims, foldM (rad_step A B F p s) (radii A B) (ims0 A F, []) = Ok (ims, []) /\
  finish_ims (radii A B) ims = Ok ims /\ rresult ims /\
  forall r j, (s <= j < n)%nat -> bA j <= r -> ic_death (nth j ims dI) <= r ->
    qgens p (NB p F s bA bB dB r) n (mv F s ims) (fun l => okf ims r l && Nat.ltb l j)%bool (mv F s ims j).
Proof.
  assert (Hss : StronglySorted Z.lt (radii A B)) by apply zunique_sorted.
  set (rho0 := match radii A B with x :: _ => x - 1 | [] => 0 end).
  assert (Hlow : forall x, In x (radii A B) -> rho0 < x).
  { unfold rho0. destruct (radii A B) as [|x l]; [intros ? []|]. apply StronglySorted_inv in Hss. destruct Hss as [_ Hss]. rewrite Forall_forall in Hss.
    intros y [<-|Hy]; [lia|]. specialize (Hss y Hy). lia. }
  destruct rel_ends as [EA EB].
  destruct (rel_loop_inv (radii A B) (radii A B) [] rho0 (ims0 A F, [])) as ([ims ker] & rho & E & HI & Hrho & _); auto.
  { apply incl_refl. }
  { split; auto. }
  { intros r []. }
  { apply rel_init_inv. intros i Hi. apply Hlow. apply EA. auto. }
  cbn [app] in *. destruct HI as (HI & Hk & HD & HV). cbn [fst snd] in *. subst ker.
  exists ims. pose proof (rresult_of_inv rho ims HI HV HD Hrho) as R. split; auto. split; [|split; auto; apply rr_dead; auto].
  apply all_piv_finish_ims. rewrite (rr_len _ R). apply R.
Qed.
End RLoop.
