(** * [image_kernel] with a broken codomain: the main loop and the barcode *)
From Verif Require Import Base ListX SortX Lin Gauss_model Gauss_arith Gauss_col Gauss_bar Spec_Gauss Basis_model Basis_props PH_model IK_model IK_pivot IK_lin IK_phase IK_kphase IK_inv IK_loop IK_rel IK_rloop IK_post IK_abs IK_broken IK_brinv PH_lin Spec_PH Spec_Bars Spec_Ext Bars.
From Coq Require Import Znumtheory Sorting.Sorted Sorting.Permutation.
Local Open Scope Z_scope.

Section BLoop.
Variables (p M : Z) (A B : basis) (F E : mat).
Notation n := (ncols F).
Notation b := (lo B).
Notation d := (hi B).
Notation al := (alive n b d).
Hypothesis Hp : prime p.
Hypothesis HF : wf_mat F.
Hypothesis Hsq : nrows F = n.
Hypothesis HF1 : forall j i, (j < n)%nat -> fF F j i = funit j i.
Hypothesis HA : b_flat A = false.
Hypothesis HB : b_flat B = false.
Hypothesis HAd : b_dim A = length (b_bars A).
Hypothesis HBd : b_dim B = length (b_bars B).
Hypothesis HAn : b_dim A = n.
Hypothesis HBn : b_dim B = n.
Hypothesis Hbrk : b_brk B = Some E.
Hypothesis HEr : nrows E = n.
Hypothesis HEw : wf_mat E.
Hypothesis Hb : forall i, (i < n)%nat -> lo A i = b i.
Hypothesis HdA : forall i, (i < n)%nat -> hi A i = M.
Hypothesis Hbar : forall i, (i < n)%nat -> b i < d i <= M.
Hypothesis Hsort : forall i j, (i <= j)%nat -> (j < n)%nat -> b i <= b j.
Hypothesis HE : forall i k, (i < n)%nat -> (k < n)%nat -> ~ cong p (get E i k) 0 -> b i <= d k /\ forall l, (l < n)%nat -> cong p (get E l i) 0.

Notation BI := (BInv p B F E).
Definition BI' (D done : list Z) (rho : Z) (st : list icol * list kcol) : Prop :=
  BI done rho (fst st) /\ snd st = [] /\ dI_in D (fst st).

Lemma br_step_inv D done rho rad st : In rad D -> BI' D done rho st -> next F (lo A) (hi A) b d done rho rad ->
  exists st', rad_step A B F p 0 st rad = Ok st' /\ BI' D (done ++ [rad]) rad st'.
Proof.
  destruct st as [ims ker]. intros HrD (HI & Hk & HD) Hnx. cbn [fst snd] in *. subst ker.
  unfold rad_step.
  destruct (select_total A (fun x => (fst x <=? rad) && (rad <? snd x)) HA HAd) as (aA & EaA).
  destruct (select_total B (fun x => (fst x <=? rad) && (rad <? snd x)) HB HBd) as (aB & EaB).
  destruct (select_total A (fun x => snd x =? rad) HA HAd) as (dyA & EdA).
  destruct (select_total A (fun x => fst x =? rad) HA HAd) as (biA & EbA).
  destruct (select_total B (fun x => snd x =? rad) HB HBd) as (dyB & EdB).
  unfold active, death, birth. rewrite EaA, EaB, EdA, EbA, EdB. cbn [bind]. rewrite Hbrk. cbn [negb andb].
  destruct (mem_active B n aB rad HBd HBn EaB) as [SB MB].
  apply select_spec in EdA, EbA, EdB. destruct EdA as [_ EdA], EbA as [_ EbA], EdB as [_ EdB].
  rewrite <- HAd in EdA, EbA. rewrite <- HBd in EdB. rewrite HAn in EdA, EbA |- *.
  assert (HdA' : forall i, In i dyA <-> (i < n)%nat /\ M = rad).
  { intros i. rewrite EdA, Z.eqb_eq. split; intros [H1 H2]; split; auto; specialize (HdA i H1); unfold hi in HdA; congruence. }
  assert (HbA' : forall i, In i biA <-> (i < n)%nat /\ b i = rad).
  { intros i. rewrite EbA, Z.eqb_eq. split; intros [H1 H2]; split; auto; specialize (Hb i H1); unfold lo in *; congruence. }
  assert (HdB' : forall i, In i dyB <-> (i < n)%nat /\ d i = rad) by (intros i; rewrite EdB, Z.eqb_eq, HBn; reflexivity).
  destruct (upd_gen p M B F E Hp Hsq HB HBd HBn Hbrk HEr rad ims dyA (bi_len _ _ _ _ _ _ _ HI) (bi_wf _ _ _ _ _ _ _ HI) (bi_birth _ _ _ _ _ _ _ HI) HdA') as (uims & Eu & Lu & Hu).
  cbv zeta. rewrite Eu. cbn [bind].
  destruct (br_phase p M A B F E Hp HF Hsq HF1 HA HB HAd HBd HAn HBn HEr HEw Hb HdA Hbar Hsort HE done rho rad ims dyA HI Hnx HdA' aB biA dyB uims SB MB HbA' HdB' Lu Hu) as (ims2 & np & Ef & HI2).
  rewrite Ef. cbn [bind]. exists (ims2, []). split; auto.
  apply (im_fold_deaths F aB dyA biA dyB rad p 0 n true D) in Ef; auto; [| |intros ? []|intros ? []].
  - cbn [fst snd] in Ef. unfold BI'. cbn [fst snd]. tauto.
  - intros c Hc Hm. apply In_nth with (d := dI) in Hc. destruct Hc as (j & Hj & <-). rewrite Lu in Hj. destruct (Hu j Hj) as (_ & _ & _ & X1 & X2 & _).
    unfold pv at 1 in X1. rewrite Hm in X1. rewrite X2. destruct (bhit M rad ims j); auto. apply HD; auto. apply nth_In. rewrite (bi_len _ _ _ _ _ _ _ HI). auto.
Qed.

Lemma br_loop_inv D rest : forall done rho st, incl rest D -> ends_in A B F (done ++ rest) -> StronglySorted Z.lt (done ++ rest) ->
  (forall r, In r done -> r <= rho) -> (forall r, In r rest -> rho < r) -> BI' D done rho st ->
  exists st' rho', foldM (rad_step A B F p 0) rest st = Ok st' /\ BI' D (done ++ rest) rho' st' /\
    (forall r, In r (done ++ rest) -> r <= rho') /\ (rest = [] /\ rho' = rho \/ In rho' rest).
Proof.
  induction rest as [|rad rest IH]; intros done rho st HD He Hss Hd Hr HI.
  - rewrite app_nil_r in *. exists st, rho. cbn [foldM]. split; auto.
  - assert (Hgt : forall r, In r rest -> rad < r).
    { clear -Hss. induction done as [|x done IHd]; cbn in Hss.
      - apply StronglySorted_inv in Hss. rewrite <- Forall_forall. tauto.
      - apply IHd. apply StronglySorted_inv in Hss. tauto. }
    destruct (br_step_inv D done rho rad st) as (st1 & E1 & HI1); auto.
    { apply HD. left. auto. }
    { assert (X : forall x, In x (done ++ rad :: rest) -> x <= rho \/ rad <= x).
      { intros x Hx. apply in_app_or in Hx. destruct Hx as [Hx|[<-|Hx]]; [left; auto|right; lia|right; apply Hgt in Hx; lia]. }
      destruct He as [HeA HeB]. split; [apply Hr; left; auto|]. split; [auto|].
      split; intros i Hi; [destruct (HeA i Hi)|destruct (HeB i Hi)]; auto. }
    destruct (IH (done ++ [rad]) rad st1) as (st' & rho' & E' & HI' & H1 & H2); auto.
    { intros x Hx. apply HD. right. auto. }
    { rewrite <- app_assoc. exact He. }
    { rewrite <- app_assoc. exact Hss. }
    { intros r Hin. apply in_app_or in Hin. destruct Hin as [Hin|[<-|[]]]; [|lia]. specialize (Hd r Hin). specialize (Hr rad ltac:(left; auto)). lia. }
    rewrite <- app_assoc in HI', H1. exists st', rho'. cbn [foldM]. rewrite E1. cbn [bind]. split; auto. split; auto. split; auto.
    right. destruct H2 as [[_ ->]|H2]; [left; auto|right; auto].
Qed.

Lemma br_init_inv D rho : (forall i, (i < n)%nat -> rho < b i) -> BI' D [] rho (ims0 A F, []).
Proof.
  intros Hrho. assert (Hlen : length (ims0 A F) = n) by (unfold ims0; rewrite map_length, seq_length; auto).
  assert (Hnth : forall j, (j < n)%nat -> nth j (ims0 A F) dI = ICol (lo A j) 0 (col F j) (vunit n j) (-2)) by (intros; apply nth_ims0; auto).
  assert (Hpv : forall j, (j < n)%nat -> pv (ims0 A F) j = -2) by (intros j Hj; unfold pv; rewrite Hnth; auto).
  assert (HT : forall j, (j < n)%nat -> forall i, fT (ims0 A F) j i = funit j i).
  { intros j Hj i. unfold fT. rewrite Hnth by auto. cbn [ic_T]. apply vget_vunit. auto. }
  assert (HC : forall j, (j < n)%nat -> forall i, fC (ims0 A F) j i = funit j i).
  { intros j Hj i. unfold fC. rewrite Hnth by auto. cbn [ic_col]. apply HF1. auto. }
  unfold BI'. cbn [fst snd]. split; [|split; auto].
  - constructor; auto; try (intros; rewrite Hpv in * by auto; lia); try (intros; rewrite Hpv in *; auto; lia); try (intros; exfalso; simpl in *; tauto).
    + intros j Hj. rewrite Hnth by auto. unfold wf_ic. cbn. split; [|split; [|split]].
      * apply wf_col; auto.
      * unfold vunit. rewrite map_length, seq_length. auto.
      * intros i. change (0 <= fF F j i). rewrite HF1 by auto. unfold funit. destruct (Nat.eqb i j); lia.
      * intros i. rewrite vget_vunit by auto. unfold funit. destruct (Nat.eqb i j); lia.
    + intros j Hj. rewrite Hnth by auto. apply Hb. auto.
    + intros j Hj. specialize (Hrho j Hj). rewrite Hpv by auto. lia.
    + intros j Hj _ i. rewrite HC, HT by auto. split; reflexivity.
    + intros j Hj. destruct (tri_funit p j Hp) as [X Y]. split; [intros i Hn|]; rewrite HT in * by auto; auto.
    + intros q Hq. apply alive_iff in Hq. destruct Hq as (Hq & H & _). specialize (Hrho q Hq). lia.
  - intros c Hc Hm. unfold ims0 in Hc. apply in_map_iff in Hc. destruct Hc as (j & <- & _). cbn in Hm. lia.
Qed.

(** ** After the loop *)
Lemma br_ends : ends_in A B F (radii A B).
Proof.
  unfold ends_in, radii, lo, hi. split; intros i Hi; split; apply zunique_In, in_or_app; [left|left|right|right]; apply changes_In; exists i;
    (split; [lia|auto]).
Qed.

Definition okf (ims : list icol) (r : Z) (j : nat) : bool := (b j <=? r) && (r <? ic_death (nth j ims dI)).

Record bresult (ims : list icol) : Prop := {
  br_len : length ims = n;
  br_wf : forall j, (j < n)%nat -> wf_ic F (nth j ims dI);
  br_piv : forall j, (j < n)%nat -> pv ims j = -1;
  br_birth : forall j, (j < n)%nat -> ic_birth (nth j ims dI) = b j;
  br_le : forall j, (j < n)%nat -> ic_death (nth j ims dI) <= M;
  br_q : forall r, exists T : nat -> fvec, (forall j, (j < n)%nat -> tri p j (T j)) /\
    (forall j, (j < n)%nat -> b j <= r -> okf ims r j = false -> rel p B F E r (T j)) /\ qindep p (rel p B F E r) n T (okf ims r)
}.

Lemma bresult_of_inv rho ims : BI (radii A B) rho ims -> dI_in (radii A B) ims -> (forall x, In x (radii A B) -> x <= rho) -> bresult ims.
Proof.
  intros HI HDI Hrho. destruct br_ends as [EA EB]. rewrite Hsq in EB.
  assert (Hlen := bi_len _ _ _ _ _ _ _ HI).
  assert (Hpv : forall j, (j < n)%nat -> pv ims j = -1).
  { intros j Hj. destruct (EB j Hj) as [X Y]. apply Hrho in X, Y. destruct (bi_range _ _ _ _ _ _ _ HI j Hj) as [R|[R|R]]; auto.
    - apply (bi_unborn _ _ _ _ _ _ _ HI j Hj) in R. lia.
    - destruct (bi_piv _ _ _ _ _ _ _ HI j Hj R) as [Q _]. apply on_nz in Q. destruct Q as [Q _]. apply alive_iff in Q.
      destruct (EB (Z.to_nat (pv ims j)) ltac:(tauto)) as [_ Z0]. apply Hrho in Z0. lia. }
  assert (HID : forall j, (j < n)%nat -> In (ic_death (nth j ims dI)) (radii A B)).
  { intros j Hj. apply HDI; [apply nth_In; lia|]. apply Hpv; auto. }
  assert (Hr : forall r, (forall x, In x (radii A B) -> r < x) \/ exists r0, In r0 (radii A B) /\ forall x, In x (radii A B) -> (x <= r <-> x <= r0)).
  { intros r. destruct (existsb (fun x => x <=? r) (radii A B)) eqn:E1.
    - right. apply existsb_exists in E1. destruct E1 as (x & Hx & Hle). apply Z.leb_le in Hle.
      destruct (last_radius (radii A B) r) as (r0 & H1 & H2 & H3); [eauto|]. exists r0. split; auto. intros y Hy. split; auto. lia.
    - left. intros x Hx. destruct (Z_lt_le_dec r x) as [|Hle]; auto. assert (existsb (fun x => x <=? r) (radii A B) = true); [|congruence].
      apply existsb_exists. exists x. split; auto. apply Z.leb_le. auto. }
  constructor; auto; try apply HI.
  - intros j Hj. specialize (HID j Hj). unfold radii in HID. apply zunique_In, in_app_or in HID.
    rewrite !changes_In in HID. destruct HID as [(i & Hi & X)|(i & Hi & X)].
    + rewrite <- HAd, HAn in Hi. specialize (Hb i Hi). specialize (HdA i Hi). specialize (Hbar i Hi). unfold lo, hi in *. destruct X as [X|X]; lia.
    + rewrite <- HBd, HBn in Hi. specialize (Hbar i Hi). unfold lo, hi in *. destruct X as [X|X]; lia.
  - intros r. destruct (Hr r) as [H|(r0 & H0 & H)].
    + exists funit. split; [intros j Hj; apply tri_funit; auto|]. split.
      * intros j Hj X. destruct (EB j Hj) as [Y _]. apply H in Y. lia.
      * intros c Hc _ j Hj. destruct (cong_dec p (c j) 0) as [|X]; auto. specialize (Hc j Hj X). unfold okf in Hc.
        apply andb_prop in Hc. destruct Hc as [Hc _]. apply Z.leb_le in Hc. destruct (EB j Hj) as [Y _]. apply H in Y. lia.
    + assert (HR : forall u, rel p B F E r u <-> rel p B F E r0 u).
      { intros u. split; intros (c & C1 & C2); exists c; (split; [|exact C2]); intros k Hk Hlt; apply C1; auto;
          destruct (EB k Hk) as [_ Y]; apply H in Y; lia. }
      assert (Hok : forall j, (j < n)%nat -> okf ims r j = IK_brinv.okr B ims r0 j).
      { intros j Hj. unfold okf, IK_brinv.okr. rewrite (Hpv j Hj). cbn [Z.eqb negb orb]. destruct (EB j Hj) as [X _]. pose proof (HID j Hj) as Y.
        apply H in X, Y. f_equal.
        - apply Bool.eq_iff_eq_true. rewrite !Z.leb_le. tauto.
        - apply Bool.eq_iff_eq_true. rewrite !Z.ltb_lt. lia. }
      destruct (bi_past _ _ _ _ _ _ _ HI r0 H0) as [(T & T1 & T2 & T3)]. exists T. split; auto. split.
      * intros j Hj Hbj Hf. apply HR. apply T2; auto; [apply H; auto; apply EB; auto|]. rewrite <- Hok; auto.
      * intros c Hc Hz. apply (T3 c); [|apply HR; auto]. intros j Hj Hn. rewrite <- Hok; auto.
Qed.

Lemma br_loop_result : exists ims, foldM (rad_step A B F p 0) (radii A B) (ims0 A F, []) = Ok (ims, []) /\ bresult ims.
Proof.
  pose proof br_ends as He.
  assert (Hss : StronglySorted Z.lt (radii A B)) by apply zunique_sorted.
  set (rho0 := match radii A B with [] => 0 | r :: _ => r - 1 end).
  assert (H0 : forall r, In r (radii A B) -> rho0 < r).
  { unfold rho0. destruct (radii A B) as [|r0 l]; [intros r []|]. apply StronglySorted_inv in Hss. destruct Hss as [_ Hf]. rewrite Forall_forall in Hf.
    intros r [<-|Hr]; [lia|]. apply Hf in Hr. lia. }
  destruct (br_loop_inv (radii A B) (radii A B) [] rho0 (ims0 A F, [])) as ([ims ker] & rho' & E1 & (HI & Hk & HD) & Hle & _); auto.
  - apply incl_refl.
  - intros r [].
  - apply br_init_inv. intros i Hi. apply H0. apply He. rewrite Hsq. auto.
  - cbn [fst snd] in *. subst ker. exists ims. split; auto. eapply bresult_of_inv; eauto.
Qed.
End BLoop.
