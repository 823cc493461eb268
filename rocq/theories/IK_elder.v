(** * [image_kernel] with a broken codomain whose relations only name older, longer-living bars *)
From Verif Require Import Base ListX SortX Lin Gauss_model Gauss_arith Gauss_col Gauss_bar Spec_Gauss Basis_model Basis_props PH_model IK_model IK_pivot IK_lin IK_phase IK_kphase IK_inv IK_loop IK_rel IK_rloop IK_post IK_abs IK_broken IK_brinv IK_brloop IK_brbar.
From Coq Require Import Znumtheory Sorting.Sorted Sorting.Permutation.
Local Open Scope Z_scope.

Lemma alive_le l : (count_alive l <= length l)%nat.
Proof. unfold count_alive. induction l as [|c l IH]; cbn; [lia|]. destruct (negb _); cbn; lia. Qed.

Section Elder.
Variables (rnd : Z -> Z) (p M : Z) (A B : basis) (F E : mat).
Notation n := (ncols F).
Notation b := (lo B).
Notation d := (hi B).
Notation al := (alive n b d).
Hypothesis Hp : prime p.
Hypothesis HF : wf_mat F.
Hypothesis Hsq : nrows F = n.
Hypothesis HF1 : forall j i, (j < n)%nat -> fF F j i = funit j i.
Hypothesis HA : b_flat A = false.
Hypothesis HB : b_flat B = false.
Hypothesis HAd : b_dim A = length (b_bars A).
Hypothesis HBd : b_dim B = length (b_bars B).
Hypothesis HAn : b_dim A = n.
Hypothesis HBn : b_dim B = n.
Hypothesis Hbrk : b_brk B = Some E.
Hypothesis HEr : nrows E = n.
Hypothesis Hb : forall i, (i < n)%nat -> lo A i = b i.
Hypothesis HdA : forall i, (i < n)%nat -> hi A i = M.
Hypothesis Hbar : forall i, (i < n)%nat -> b i < d i <= M.
Hypothesis Hsort : forall i j, (i <= j)%nat -> (j < n)%nat -> b i <= b j.
Hypothesis HE : forall i k, (i < n)%nat -> (k < n)%nat -> ~ cong p (get E i k) 0 -> (i < k)%nat.

Lemma nz1 : ~ cong p 1 0.
Proof. rewrite cong0_divide. intros X. pose proof (prime_ge_2 _ Hp). apply Z.divide_pos_le in X; lia. Qed.

(** Column [j] of the image is a unit vector before its birth; while it lives its last entry is at [j]; afterwards it is zero at all the bars which have not died. *)
Record EInv (rho : Z) (ims : list icol) : Prop := {
  ei_len : length ims = n;
  ei_wf : forall j, (j < n)%nat -> wf_ic F (nth j ims dI);
  ei_birth : forall j, (j < n)%nat -> ic_birth (nth j ims dI) = b j;
  ei_unborn : forall j, (j < n)%nat -> rho < b j -> pv ims j = -2 /\ forall i, cong p (fC ims j i) (funit j i);
  ei_alive : forall j, (j < n)%nat -> b j <= rho < d j -> pv ims j = Z.of_nat j /\ ~ cong p (fC ims j j) 0 /\
    forall i, (j < i < n)%nat -> rho < d i -> cong p (fC ims j i) 0;
  ei_dead : forall j, (j < n)%nat -> d j <= rho -> pv ims j = -1 /\ ic_death (nth j ims dI) = d j /\
    forall i, (i < n)%nat -> rho < d i -> cong p (fC ims j i) 0
}.

Section Step.
Variables (done : list Z) (rho rad : Z) (ims : list icol) (dyA : list nat).
Hypothesis HI : EInv rho ims.
Hypothesis Hnext : next F (lo A) (hi A) b d done rho rad.
Local Notation bhit := (bhit M rad ims).
Local Notation dyk k := (d k =? rad).
Variables (actB birA dyB : list nat) (uims : list icol).
Hypothesis HactB : StronglySorted lt actB.
Hypothesis HactB' : forall i, mem actB i = al rad i.
Hypothesis HbirA : forall i, In i birA <-> (i < n)%nat /\ b i = rad.
Hypothesis HdyB : forall i, In i dyB <-> (i < n)%nat /\ d i = rad.
Hypothesis HuL : length uims = n.
Hypothesis Hu : forall j, (j < n)%nat -> wf_ic F (nth j uims dI) /\ ic_birth (nth j uims dI) = b j /\ ic_T (nth j uims dI) = ic_T (nth j ims dI) /\
     pv uims j = (if bhit j then -1 else pv ims j) /\ ic_death (nth j uims dI) = (if bhit j then rad else ic_death (nth j ims dI)) /\
     (forall i, (i < n)%nat -> cong p (fC uims j i) ((if dyk i then 0 else fC ims j i) + Zsum n (fun k => if dyk k then get E i k * fC ims j k else 0))).

Local Lemma Hrr : rho < rad.
Proof. apply Hnext. Qed.
Local Lemma nb i : (i < n)%nat -> (b i <= rho \/ rad <= b i) /\ (d i <= rho \/ rad <= d i).
Proof. intros Hi. destruct Hnext as (_ & _ & _ & N). apply N. rewrite Hsq. auto. Qed.

Lemma e_init j i : (j < n)%nat -> rho < b j -> cong p (fC uims j i) (funit j i).
Proof.
  intros Hj Hlt. destruct (ei_unborn _ _ HI j Hj Hlt) as [_ Hi0].
  destruct (Hu j Hj) as ((W & _) & _ & _ & _ & _ & X).
  destruct (lt_dec i n) as [Hi|Hi].
  2:{ unfold fC. rewrite vget_out by lia. unfold funit. destruct (Nat.eqb_spec i j); [lia|reflexivity]. }
  rewrite X by auto.
  assert (Hdj : dyk j = false). { apply Z.eqb_neq. pose proof (Hbar j Hj). destruct (nb j Hj) as [[Y|Y] _]; lia. }
  rewrite Zsum_cong0.
  - rewrite Z.add_0_r. destruct (dyk i) eqn:Ei; [|apply Hi0]. unfold funit. destruct (Nat.eqb_spec i j) as [->|]; [congruence|reflexivity].
  - intros k Hk. destruct (dyk k) eqn:Ek; [|reflexivity]. rewrite Hi0. unfold funit. destruct (Nat.eqb_spec k j) as [->|]; [congruence|]. apply cong_eq; ring.
Qed.

(** Rows which are still to die: nothing new above the last entry. *)
Lemma e_row j i q : (j < n)%nat -> (i < n)%nat -> (q <= i)%nat -> rad < d i ->
  (forall k, (q < k < n)%nat -> rho < d k -> cong p (fC ims j k) 0) -> cong p (fC uims j i) (fC ims j i).
Proof.
  intros Hj Hi Hq Hd Hz. destruct (Hu j Hj) as (_ & _ & _ & _ & _ & X). rewrite X by auto.
  replace (dyk i) with false by (symmetry; apply Z.eqb_neq; lia).
  rewrite Zsum_cong0; [apply cong_eq; ring|]. intros k Hk. destruct (Z.eqb_spec (d k) rad) as [Ek|]; [|reflexivity].
  destruct (cong_dec p (get E i k) 0) as [Y|Y]; [rewrite Y; apply cong_eq; ring|]. pose proof (HE i k Hi Hk Y).
  rewrite Hz; [apply cong_eq; ring|lia|]. pose proof Hrr. lia.
Qed.

Lemma e_up j i : (j < n)%nat -> (i < n)%nat -> (j < i)%nat -> b j <= rad -> rad < d i -> cong p (fC uims j i) 0.
Proof.
  intros Hj Hi Hji Hbj Hd. pose proof Hrr as R. destruct (Z_le_gt_dec (b j) rho) as [Hle|Hgt].
  - destruct (Z_lt_le_dec rho (d j)) as [Ha|Hd'].
    + destruct (ei_alive _ _ HI j Hj ltac:(lia)) as (_ & _ & Z0). rewrite (e_row j i j) by (auto; lia). apply Z0; lia.
    + destruct (ei_dead _ _ HI j Hj ltac:(lia)) as (_ & _ & Z0). rewrite (e_row j i j) by (auto; try lia; intros; apply Z0; lia). apply Z0; lia.
  - rewrite e_init by (auto; lia). unfold funit. destruct (Nat.eqb_spec i j); [lia|reflexivity].
Qed.

Lemma e_own j : (j < n)%nat -> b j <= rad < d j -> ~ cong p (fC uims j j) 0.
Proof.
  intros Hj Hbj. pose proof Hrr as R. destruct (Z_le_gt_dec (b j) rho) as [Hle|Hgt].
  - destruct (ei_alive _ _ HI j Hj ltac:(lia)) as (_ & N0 & Z0). rewrite (e_row j j j) by (auto; lia). auto.
  - rewrite e_init by (auto; lia). unfold funit. rewrite Nat.eqb_refl. apply nz1.
Qed.

Lemma e_past j i : (j < n)%nat -> (i < n)%nat -> d j <= rho -> rad < d i -> cong p (fC uims j i) 0.
Proof.
  intros Hj Hi Hd Hdi. pose proof Hrr as R. destruct (ei_dead _ _ HI j Hj Hd) as (_ & _ & Z0).
  rewrite (e_row j i i) by (auto; intros; apply Z0; lia). apply Z0; lia.
Qed.

Lemma e_phase : exists ims2 newp, foldM (im_step F actB dyA birA dyB rad p 0 n true) uims ([], [], []) = Ok (ims2, newp, []) /\ EInv rad ims2.
Proof.
  pose proof Hrr as R.
  assert (Hpiv : forall v q, is_piv p (on (mem actB) v) q <-> is_piv p (on (al rad) v) q).
  { intros v q. split; intros H; apply (is_piv_veq p) with (2 := H); intros i; rewrite (on_ext _ _ v i HactB'); reflexivity. }
  assert (Hcase : forall j, (j < n)%nat -> (pv ims j = -2 /\ rho < b j) \/ (pv ims j = Z.of_nat j /\ b j <= rho < d j) \/ (pv ims j = -1 /\ d j <= rho)).
  { intros j Hj. destruct (Z_le_gt_dec (b j) rho) as [Hle|Hgt]; [right|left].
    - destruct (Z_lt_le_dec rho (d j)) as [Ha|Hd']; [left|right]; (split; [|lia]); [apply (ei_alive _ _ HI)|apply (ei_dead _ _ HI)]; auto; lia.
    - split; [apply (ei_unborn _ _ HI); auto; lia|lia]. }
  assert (Hpu : forall j, (j < n)%nat -> (pv uims j = -2 /\ rho < b j /\ bhit j = false) \/ (pv uims j = Z.of_nat j /\ b j <= rho < d j /\ M <> rad /\ bhit j = false) \/
    (pv uims j = -1 /\ b j <= rho < d j /\ M = rad /\ bhit j = true) \/ (pv uims j = -1 /\ d j <= rho /\ bhit j = false)).
  { intros j Hj. destruct (Hu j Hj) as (_ & _ & _ & -> & _). pose proof (Hbar j Hj) as Bj. destruct (nb j Hj) as [Nb _]. unfold bhit.
    destruct (Z.eqb_spec M rad) as [e|e]; cbn [andb]; destruct (Hcase j Hj) as [[X Y]|[[X Y]|[X Y]]].
    - exfalso. lia.
    - rewrite X. destruct (Z.eqb_spec (Z.of_nat j) (-1)); [lia|]. cbn. tauto.
    - rewrite X. cbn. tauto.
    - rewrite X. tauto.
    - rewrite X. tauto.
    - rewrite X. tauto. }
  destruct (im_phase p F actB (seq 0 n) birA dyB rad 0 n Hp HF HactB) with (ims := uims) (ker := [] : list kcol) as (ims2 & newp & ker2 & Ef & L2 & G & _); auto.
  { intros i Hi. apply memn_In in Hi. change (mem actB i = true) in Hi. rewrite HactB' in Hi. apply alive_iff in Hi. rewrite Hsq. tauto. }
  { intros j Hj. apply Hu; auto. }
  { intros j Hj X1 X2 X3. unfold pB. apply Hpiv. destruct (Hpu j Hj) as [Y|[Y|[Y|Y]]]; try lia. destruct Y as (Y1 & Y2 & _). rewrite Y1, Nat2Z.id in *.
    assert (Hdj : rad < d j). { assert (d j <> rad) by (intros C; apply X2, HdyB; auto). destruct (nb j Hj) as [_ [|]]; lia. }
    split.
    - unfold on. replace (al rad j) with true by (symmetry; apply alive_iff; lia). auto.
    - intros i Hi. unfold on. destruct (al rad i) eqn:Ei; [|reflexivity]. apply alive_iff in Ei. apply e_up; auto; lia. }
  { intros i j Hi Hj Hij. destruct (Hpu i Hi) as [Y|[Y|[Y|Y]]]; destruct (Hpu j Hj) as [Y'|[Y'|[Y'|Y']]]; lia. }
  { intros j Hj Hb'. apply HbirA in Hb'. destruct (Hpu j Hj) as [Y|[Y|[Y|Y]]]; try lia. pose proof (Hbar j Hj). lia. }
  { intros j Hj. destruct (Hpu j Hj) as [Y|[Y|[Y|Y]]]; lia. }
  { cbn [length]. rewrite <- HuL. apply alive_le. }
  assert (Hker : ker2 = []).
  { destruct (g_ker _ _ _ _ _ _ _ _ _ _ _ _ G) as (js & -> & _ & Hjs). destruct js as [|j js]; [reflexivity|]. exfalso.
    destruct (proj1 (Hjs j) (or_introl eq_refl)) as (X1 & _ & _ & _ & X2). apply X2. apply in_seq. lia. }
  subst ker2. exists ims2, newp.
  split; [rewrite (im_fold_broken F actB dyA birA dyB rad p n n uims) by (cbn; lia); auto|].
  assert (HC : forall j, (j < n)%nat -> exists bl, (forall i, bl i <> 0 -> (i < j)%nat /\ 0 <= pv ims2 i) /\
     (forall i, cong p (fC ims2 j i) (fC uims j i + lc j bl (fC ims2) i))).
  { intros j Hj. destruct (g_cols _ _ _ _ _ _ _ _ _ _ _ _ G j ltac:(lia)) as (pre & pret & [W Bi (bl & B1 & B2 & B3) Cs]). exists bl. split; auto.
    assert (X : forall i, pre i = fC ims2 j i).
    { destruct Cs as [Cs|[Cs|Cs]]; [tauto|tauto|]. apply Cs. reflexivity. }
    intros i; rewrite <- X; apply B2. }
  assert (Main : forall j, (j < n)%nat ->
    (rad < b j -> pv ims2 j = -2 /\ forall i, cong p (fC ims2 j i) (funit j i)) /\
    (b j <= rad < d j -> pv ims2 j = Z.of_nat j /\ ~ cong p (fC ims2 j j) 0) /\
    (b j <= rad -> forall i, (j < i < n)%nat -> rad < d i -> cong p (fC ims2 j i) 0) /\
    (d j <= rad -> pv ims2 j = -1 /\ ic_death (nth j ims2 dI) = d j /\ forall i, (i < n)%nat -> rad < d i -> cong p (fC ims2 j i) 0)).
  { intros j. induction j as [j IH] using lt_wf_ind. intros Hj. pose proof (Hbar j Hj) as Bj.
    destruct (HC j Hj) as (bl & B1 & B2).
    assert (Hup : b j <= rad -> forall i, (j <= i < n)%nat -> rad < d i -> cong p (fC ims2 j i) (fC uims j i)).
    { intros Hbj i Hi Hd. rewrite B2. rewrite (lc_cong0 p j bl (fC ims2) i); [apply cong_eq; ring|]. intros l Hl.
      destruct (IH l Hl ltac:(lia)) as (_ & _ & X & _). rewrite X; [apply cong_eq; ring| |lia|auto].
      pose proof (Hsort l j ltac:(lia) Hj). lia. }
    destruct (g_cols _ _ _ _ _ _ _ _ _ _ _ _ G j ltac:(lia)) as (pre & pret & [W Bi _ Cs]).
    destruct (Hu j Hj) as (_ & _ & _ & _ & Ud & _).
    assert (Hz : b j <= rad -> forall i, (j < i < n)%nat -> rad < d i -> cong p (fC ims2 j i) 0).
    { intros Hbj i Hi Hd. rewrite Hup by (auto; lia). apply e_up; auto; lia. }
    split; [|split; [|split; [exact Hz|]]].
    - intros Hlt. destruct (Hpu j Hj) as [Y|[Y|[Y|Y]]]; try lia. destruct Y as (Y1 & Y2 & _).
      assert (Nb : ~ In j birA) by (intros C; apply HbirA in C; lia).
      destruct Cs as [Cs|[Cs|Cs]]; [exfalso; apply Nb; apply Cs; auto| |exfalso; apply Nb; apply Cs; auto].
      destruct Cs as (C1 & _). split; [unfold pv; rewrite C1; exact Y1|]. intros i. unfold fC. rewrite C1. apply e_init; auto.
    - intros Ha. assert (N0 : ~ cong p (fC ims2 j j) 0) by (rewrite Hup by (auto; lia); apply e_own; auto).
      assert (Al : al rad j = true) by (apply alive_iff; lia). split; auto.
      destruct Cs as [Cs|[Cs|Cs]].
      + destruct Cs as (C1 & C2 & _). apply Hpiv in C2. destruct C2 as [P1 P2]. apply on_nz in P1. destruct P1 as [P1 P1'].
        apply alive_iff in P1. set (q := Z.to_nat (pv ims2 j)) in *.
        destruct (lt_eq_lt_dec q j) as [[X|X]|X]; [|lia|].
        * specialize (P2 j X). unfold on in P2. rewrite Al in P2. contradiction.
        * elim P1'. apply Hz; lia.
      + destruct Cs as (C1 & [C2|[C2 C3]] & _).
        * destruct (Hpu j Hj) as [Y|[Y|[Y|Y]]]; lia.
        * elim C3. apply HbirA. split; auto. destruct (Hpu j Hj) as [Y|[Y|[Y|Y]]]; try lia. destruct (nb j Hj) as [[|] _]; lia.
      + destruct Cs as (_ & _ & _ & _ & C5 & C6 & _). destruct C6 as [C6 _]; [reflexivity|]. specialize (C5 j). unfold on in C5. rewrite HactB', Al in C5.
        rewrite C6 in C5. contradiction.
    - intros Hd. destruct (Hpu j Hj) as [Y|[Y|[Y|Y]]].
      + destruct Y as (_ & Y & _). destruct (nb j Hj) as [[|] _]; lia.
      + (* dies now *)
        destruct Y as (Y1 & Y2 & Y3 & Y4). assert (Ed : d j = rad) by (destruct (nb j Hj) as [_ [|]]; lia).
        destruct Cs as [Cs|[Cs|Cs]].
        * exfalso. destruct Cs as (C1 & C2 & _). apply Hpiv in C2. destruct C2 as [P1 P2]. apply on_nz in P1. destruct P1 as [P1 P1'].
          apply alive_iff in P1. set (q := Z.to_nat (pv ims2 j)) in *.
          destruct (lt_eq_lt_dec q j) as [[X|X]|X].
          -- destruct (IH q X ltac:(lia)) as (_ & Q1 & _). destruct Q1 as [Q1 _]; [lia|].
             apply (g_dist _ _ _ _ _ _ _ _ _ _ _ _ G q j); [lia|lia|lia|lia|]. rewrite Q1. unfold q. rewrite Z2Nat.id; auto.
          -- rewrite X in P1. lia.
          -- apply P1'. apply Hz; lia.
        * exfalso. destruct Cs as (_ & C2 & _). lia.
        * destruct Cs as (C1 & _ & _ & C4 & C5 & C6 & _). destruct C6 as [C6 _]; [reflexivity|]. split; auto. split; [lia|].
          intros i Hi Hdi. destruct (Z_le_gt_dec (b i) rad) as [Hbi|Hbi].
          -- specialize (C5 i). unfold on in C5. rewrite HactB' in C5. replace (al rad i) with true in C5 by (symmetry; apply alive_iff; lia).
             rewrite <- C6. exact C5.
          -- apply Hz; [lia| |auto]. split; auto. destruct (le_lt_dec i j) as [X|X]; auto. pose proof (Hsort i j X Hj). lia.
      + destruct Y as (Y1 & Y2 & Y3 & Y4). rewrite Y4 in Ud.
        assert (C1 : nth j ims2 dI = nth j uims dI) by (destruct Cs as [Cs|[Cs|Cs]]; [lia|tauto|lia]).
        split; [unfold pv; rewrite C1; exact Y1|]. split; [rewrite C1, Ud; destruct (nb j Hj) as [_ [|]]; lia|].
        intros i Hi Hdi. pose proof (Hbar i Hi). lia.
      + destruct Y as (Y1 & Y2 & Y3). rewrite Y3 in Ud.
        assert (C1 : nth j ims2 dI = nth j uims dI) by (destruct Cs as [Cs|[Cs|Cs]]; [lia|tauto|lia]).
        split; [unfold pv; rewrite C1; exact Y1|]. split; [rewrite C1, Ud; apply (ei_dead _ _ HI); auto|].
        intros i Hi Hdi. unfold fC. rewrite C1. apply e_past; auto. }
  constructor; auto.
  - intros j Hj. destruct (g_cols _ _ _ _ _ _ _ _ _ _ _ _ G j ltac:(lia)) as (pre & pret & [W _ _ _]). auto.
  - intros j Hj. destruct (g_cols _ _ _ _ _ _ _ _ _ _ _ _ G j ltac:(lia)) as (pre & pret & [_ W _ _]). rewrite W. apply Hu; auto.
  - intros j Hj. apply (Main j Hj).
  - intros j Hj Ha. destruct (Main j Hj) as (_ & X & Y & _). destruct (X Ha). split; auto. split; auto. apply Y. lia.
  - intros j Hj. apply (Main j Hj).
Qed.
End Step.

Lemma e_step done rho rad ims : EInv rho ims -> next F (lo A) (hi A) b d done rho rad ->
  exists ims', rad_step A B F p 0 (ims, []) rad = Ok (ims', []) /\ EInv rad ims'.
Proof.
  intros HI Hnx. unfold rad_step.
  destruct (select_total A (fun x => (fst x <=? rad) && (rad <? snd x)) HA HAd) as (aA & EaA).
  destruct (select_total B (fun x => (fst x <=? rad) && (rad <? snd x)) HB HBd) as (aB & EaB).
  destruct (select_total A (fun x => snd x =? rad) HA HAd) as (dyA & EdA).
  destruct (select_total A (fun x => fst x =? rad) HA HAd) as (biA & EbA).
  destruct (select_total B (fun x => snd x =? rad) HB HBd) as (dyB & EdB).
  unfold active, death, birth. rewrite EaA, EaB, EdA, EbA, EdB. cbn [bind]. rewrite Hbrk. cbn [negb andb].
  destruct (mem_active B n aB rad HBd HBn EaB) as [SB MB].
  apply select_spec in EdA, EbA, EdB. destruct EdA as [_ EdA], EbA as [_ EbA], EdB as [_ EdB].
  rewrite <- HAd in EdA, EbA. rewrite <- HBd in EdB. rewrite HAn in EdA, EbA |- *.
  assert (HdA' : forall i, In i dyA <-> (i < n)%nat /\ M = rad).
  { intros i. rewrite EdA, Z.eqb_eq. split; intros [H1 H2]; split; auto; specialize (HdA i H1); unfold hi in HdA; congruence. }
  assert (HbA' : forall i, In i biA <-> (i < n)%nat /\ b i = rad).
  { intros i. rewrite EbA, Z.eqb_eq. split; intros [H1 H2]; split; auto; specialize (Hb i H1); unfold lo in *; congruence. }
  assert (HdB' : forall i, In i dyB <-> (i < n)%nat /\ d i = rad) by (intros i; rewrite EdB, Z.eqb_eq, HBn; reflexivity).
  destruct (upd_gen p M B F E Hp Hsq HB HBd HBn Hbrk HEr rad ims dyA (ei_len _ _ HI) (ei_wf _ _ HI) (ei_birth _ _ HI) HdA') as (uims & Eu & Lu & Hu).
  cbv zeta. rewrite Eu. cbn [bind].
  destruct (e_phase done rho rad ims dyA HI Hnx aB biA dyB uims SB MB HbA' HdB' Lu Hu) as (ims2 & np & Ef & HI2).
  rewrite Ef. cbn [bind]. exists ims2. auto.
Qed.

Lemma e_loop rest : forall done rho ims, ends_in A B F (done ++ rest) -> StronglySorted Z.lt (done ++ rest) ->
  (forall r, In r done -> r <= rho) -> (forall r, In r rest -> rho < r) -> EInv rho ims ->
  exists ims' rho', foldM (rad_step A B F p 0) rest (ims, []) = Ok (ims', []) /\ EInv rho' ims' /\ forall r, In r (done ++ rest) -> r <= rho'.
Proof.
  induction rest as [|rad rest IH]; intros done rho ims He Hss Hd Hr HI.
  - rewrite app_nil_r in *. exists ims, rho. auto.
  - assert (Hgt : forall r, In r rest -> rad < r).
    { clear -Hss. induction done as [|x done IHd]; cbn in Hss.
      - apply StronglySorted_inv in Hss. rewrite <- Forall_forall. tauto.
      - apply IHd. apply StronglySorted_inv in Hss. tauto. }
    destruct (e_step done rho rad ims) as (ims1 & E1 & HI1); auto.
    { assert (X : forall x, In x (done ++ rad :: rest) -> x <= rho \/ rad <= x).
      { intros x Hx. apply in_app_or in Hx. destruct Hx as [Hx|[<-|Hx]]; [left; auto|right; lia|right; apply Hgt in Hx; lia]. }
      destruct He as [HeA HeB]. split; [apply Hr; left; auto|]. split; [auto|].
      split; intros i Hi; [destruct (HeA i Hi)|destruct (HeB i Hi)]; auto. }
    destruct (IH (done ++ [rad]) rad ims1) as (ims' & rho' & E' & HI' & H1); auto.
    { rewrite <- app_assoc. exact He. }
    { rewrite <- app_assoc. exact Hss. }
    { intros r Hin. apply in_app_or in Hin. destruct Hin as [Hin|[<-|[]]]; [|lia]. specialize (Hd r Hin). specialize (Hr rad ltac:(left; auto)). lia. }
    rewrite <- app_assoc in H1. exists ims', rho'. cbn [foldM]. rewrite E1. cbn [bind]. split; auto.
Qed.

Lemma e_init_inv rho : (forall i, (i < n)%nat -> rho < b i) -> EInv rho (ims0 A F).
Proof.
  intros Hrho. assert (Hnth : forall j, (j < n)%nat -> nth j (ims0 A F) dI = ICol (lo A j) 0 (col F j) (vunit n j) (-2)) by (intros; apply nth_ims0; auto).
  constructor.
  - unfold ims0. rewrite map_length, seq_length; auto.
  - intros j Hj. rewrite Hnth by auto. unfold wf_ic. cbn. split; [|split; [|split]].
    + apply wf_col; auto.
    + unfold vunit. rewrite map_length, seq_length. auto.
    + intros i. change (0 <= fF F j i). rewrite HF1 by auto. unfold funit. destruct (Nat.eqb i j); lia.
    + intros i. rewrite vget_vunit by auto. unfold funit. destruct (Nat.eqb i j); lia.
  - intros j Hj. rewrite Hnth by auto. apply Hb. auto.
  - intros j Hj _. split; [unfold pv; rewrite Hnth; auto|]. intros i. unfold fC. rewrite Hnth by auto. cbn [ic_col]. change (cong p (fF F j i) (funit j i)). rewrite HF1 by auto. reflexivity.
  - intros j Hj X. specialize (Hrho j Hj). lia.
  - intros j Hj X. specialize (Hrho j Hj). specialize (Hbar j Hj). lia.
Qed.

Hypothesis HAs : b_sorted A = true.
Hypothesis HBs : b_sorted B = true.
Hypothesis Hn : (0 < n)%nat.

Theorem image_kernel_elder : exists Im Pre, image_kernel rnd A B F p 0 = Ok (Im, None, Pre) /\ Permutation (b_bars Im) (b_bars B).
Proof.
  assert (He : ends_in A B F (radii A B)).
  { unfold ends_in, radii, lo, hi. split; intros i Hi; split; apply zunique_In, in_or_app; [left|left|right|right]; apply changes_In; exists i;
      (split; [lia|auto]). }
  assert (Hss : StronglySorted Z.lt (radii A B)) by apply zunique_sorted.
  set (rho0 := match radii A B with [] => 0 | r :: _ => r - 1 end).
  assert (H0 : forall r, In r (radii A B) -> rho0 < r).
  { unfold rho0. destruct (radii A B) as [|r0 l]; [intros r []|]. apply StronglySorted_inv in Hss. destruct Hss as [_ Hf]. rewrite Forall_forall in Hf.
    intros r [<-|Hr]; [lia|]. apply Hf in Hr. lia. }
  destruct (e_loop (radii A B) [] rho0 (ims0 A F)) as (ims & rho' & EL & HI & Hle); auto.
  { intros r []. }
  { apply e_init_inv. intros i Hi. apply H0. apply He. rewrite Hsq. auto. }
  assert (Hdd : forall j, (j < n)%nat -> d j <= rho') by (intros j Hj; apply Hle, He; rewrite Hsq; auto).
  assert (Lims : length ims = n) by apply HI.
  unfold image_kernel, order_B, order_A. rewrite HBn, HAn, Hsq, !Nat.eqb_refl. cbn [negb orb]. rewrite HBs. cbn [bind]. rewrite HAs. cbn [bind].
  rewrite HAn, HBn. fold (ims0 A F).
  change (zunique (changes_list A ++ changes_list B)) with (radii A B).
  rewrite EL. cbn [bind].
  assert (EF : finish_ims (radii A B) ims = Ok ims) by (apply all_piv_finish_ims; rewrite Lims; intros j Hj; apply (ei_dead _ _ HI); auto).
  rewrite EF. cbn [bind]. rewrite Hbrk. cbn [orb bind].
  set (CI := Mat n (map ic_col ims)).
  rewrite (take_rows_err_bij CI n (seq 0 n) (seq 0 n) eq_refl (bij_id n)). cbn [bind skipn].
  set (ibars := map (fun c => (ic_birth c, ic_death c)) ims).
  assert (Eb : ibars = b_bars B).
  { apply (nth_ext _ _ (0, 0) (0, 0)); [unfold ibars; rewrite map_length; lia|]. unfold ibars. intros j Hj. rewrite map_length in Hj.
    rewrite (nth_map _ _ _ dI) by auto. destruct (ei_dead _ _ HI j ltac:(lia) (Hdd j ltac:(lia))) as (_ & -> & _). rewrite (ei_birth _ _ HI) by lia.
    unfold lo, hi. symmetry. apply surjective_pairing. }
  replace (Mat (nrows (take_rows CI (seq 0 n))) (cols (take_rows CI (seq 0 n)))) with (take_rows CI (seq 0 n)) by reflexivity.
  destruct (post_spec rnd ibars B (take_rows CI (seq 0 n)) true) as (ib & Im & oI & lI & P1 & P2 & P3 & SI & P5 & P6 & P7 & P8 & P9 & P10 & P11 & P12 & P13 & P14).
  { unfold ibars, ncols, take_rows, CI. cbn [cols]. rewrite !map_length. auto. }
  { cbn [nrows take_rows]. rewrite seq_length. auto. }
  { apply wf_take_rows. }
  { intros _ E1. apply (f_equal (@length _)) in E1. unfold ibars in E1. rewrite map_length in E1. cbn in E1. lia. }
  rewrite P1. cbn [bind].
  match goal with |- context [take_rows_err ?m (seq 0 n)] => set (CT := m) end.
  rewrite (take_rows_err_bij CT n (seq 0 n) (seq 0 n)); [|cbn; lia|apply bij_id]. cbn [bind]. rewrite P2, P3. cbn [bind].
  destruct (P14 _ (cols (take_rows CT (seq 0 n))) []) as [Q1 Q2].
  { unfold take_rows, CT, ibars. cbn [cols]. rewrite !map_length. lia. }
  rewrite take_cols_err_ok by (intros j Hj; unfold ncols; cbn [cols]; apply Nat.lt_le_trans with (1 := P5 j Hj); apply Nat.eq_le_incl; symmetry; exact Q1). cbn [bind].
  eexists Im, _. split; [reflexivity|]. rewrite P7. destruct SI as [S1 S2].
  assert (PL : Permutation lI (seq 0 (length ibars))).
  { apply NoDup_Permutation; auto; [apply seq_NoDup|]. intros k. rewrite S2, in_seq. split; [lia|]. intros Hk. split; [lia|].
    rewrite Eb in *. rewrite <- HBd, HBn in Hk. specialize (Hbar k ltac:(lia)). unfold lo, hi in *. lia. }
  rewrite <- Eb. transitivity (map (fun k => nth k ibars (0, 0)) (seq 0 (length ibars))); [apply Permutation_map; auto|].
  replace (map (fun k => nth k ibars (0, 0)) (seq 0 (length ibars))) with ibars; [apply Permutation_refl|].
  apply (nth_ext _ _ (0, 0) (0, 0)); [rewrite map_length, seq_length; auto|]. intros j Hj.
  rewrite (nth_map _ _ _ 0%nat) by (rewrite seq_length; auto). rewrite seq_nth by auto. reflexivity.
Qed.
End Elder.
