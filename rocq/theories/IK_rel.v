(** * Invariants of the main loop of [image_kernel] (relative case, [start_index > 0]) *)
From Verif Require Import Base ListX SortX Lin Gauss_model Gauss_arith Gauss_col Basis_model PH_model IK_model IK_pivot IK_lin IK_phase IK_kphase IK_inv.
From Coq Require Import Znumtheory Sorting.Sorted.
Local Open Scope Z_scope.

(** ** Families modulo a subspace *)
Lemma lc_sub n c c' V i : lc n (fun k => c k - c' k) V i = lc n c V i - lc n c' V i.
Proof. unfold lc. rewrite <- Zsum_sub. apply Zsum_ext. intros; ring. Qed.

Section QFam.
Variables (p : Z) (U : fvec -> Prop).
Hypothesis Hp : prime p.
Hypothesis U_cong : forall u v, (forall i, cong p (u i) (v i)) -> U u -> U v.

Definition qindep (n : nat) (V : nat -> fvec) (ok : nat -> bool) : Prop :=
  forall c, (forall j, (j < n)%nat -> ~ cong p (c j) 0 -> ok j = true) -> U (lc n c V) ->
  forall j, (j < n)%nat -> cong p (c j) 0.
Definition qgens (n : nat) (V : nat -> fvec) (ok : nat -> bool) (x : fvec) : Prop :=
  exists c, (forall j, (j < n)%nat -> ~ cong p (c j) 0 -> ok j = true) /\ U (fun i => x i - lc n c V i).

Lemma qindep_ok n V ok ok' : (forall j, (j < n)%nat -> ok' j = true -> ok j = true) -> qindep n V ok -> qindep n V ok'.
Proof. intros H HI c Hc. apply HI. intros j Hj Hn. apply H; auto. Qed.
Lemma qgens_ok n V ok ok' x : (forall j, (j < n)%nat -> ok j = true -> ok' j = true) -> qgens n V ok x -> qgens n V ok' x.
Proof. intros H (c & Hc & Hx). exists c. split; auto. Qed.

Section Tri.
Variables (n : nat) (V V' : nat -> fvec) (ok : nat -> bool) (b : nat -> nat -> Z).
Hypothesis Hb : forall j, (j < n)%nat -> ok j = true -> forall i, (i < n)%nat -> ~ cong p (b j i) 0 -> (i < j)%nat /\ ok i = true.
Hypothesis HV' : forall j i, (j < n)%nat -> ok j = true -> cong p (V' j i) (V j i + lc n (b j) V' i).

Lemma qgens_tri x : qgens n V ok x -> qgens n V' ok x.
Proof.
  intros (c & Hc & Hx).
  exists (fun i => c i - Zsum n (fun j => c j * b j i)). split.
  - intros i Hi Hn. destruct (ok i) eqn:E; auto. elim Hn.
    assert (X : cong p (c i) 0). { destruct (cong_dec p (c i) 0) as [|X]; auto. rewrite (Hc i Hi X) in E. discriminate. }
    rewrite X. rewrite Zsum_cong0; [reflexivity|]. intros j Hj.
    destruct (cong_dec p (c j) 0) as [Y|Y]; [rewrite Y; apply cong_eq; ring|].
    destruct (cong_dec p (b j i) 0) as [Z|Z]; [rewrite Z; apply cong_eq; ring|].
    destruct (Hb j Hj (Hc j Hj Y) i Hi Z) as [_ E']. congruence.
  - apply (U_cong (fun i => x i - lc n c V i)); auto. intros i.
    assert (E : lc n (fun l => c l - Zsum n (fun j => c j * b j l)) V' i = lc n c V' i - lc n c (fun j => lc n (b j) V') i).
    { rewrite <- lc_lc. unfold lc. rewrite <- Zsum_sub. apply Zsum_ext. intros k Hk. ring. }
    rewrite E. apply cong_sub; [reflexivity|]. unfold lc at 1 2 3. rewrite <- Zsum_sub. apply Zsum_cong. intros j Hj.
    destruct (cong_dec p (c j) 0) as [Y|Y]; [rewrite Y; apply cong_eq; ring|].
    rewrite (HV' j i Hj (Hc j Hj Y)). apply cong_eq; ring.
Qed.

(** The vectors [V'] in terms of [V]. *)
Local Lemma back : forall k, (k <= n)%nat -> exists W : nat -> fvec, forall j, (j < k)%nat -> ok j = true ->
  tri p j (W j) /\ (forall i, ~ cong p (W j i) 0 -> ok i = true) /\ forall i, cong p (V' j i) (lc n (W j) V i).
Proof.
  intros k Hk.
  apply (fin_choose fzero k (fun j w => ok j = true -> tri p j w /\ (forall i, ~ cong p (w i) 0 -> ok i = true) /\ forall i, cong p (V' j i) (lc n w V i))).
  intros j. induction j as [j IH] using lt_wf_ind. intros Hj. destruct (ok j) eqn:Eo.
  2:{ exists fzero. intros X. discriminate. }
  destruct (fin_choose fzero j (fun j w => ok j = true -> tri p j w /\ (forall i, ~ cong p (w i) 0 -> ok i = true) /\ forall i, cong p (V' j i) (lc n w V i))) as (W & HW).
  { intros l Hl. apply IH; lia. }
  exists (fun x => funit j x + lc j (b j) W x). intros _. split; [|split].
  - apply tri_comb; [apply tri_funit; auto|]. intros l Hl Hn. split; auto. destruct (Hb j ltac:(lia) Eo l ltac:(lia) Hn) as [_ Ol]. apply HW; auto.
  - intros i Hn. destruct (Nat.eq_dec i j) as [->|Hij]; auto.
    destruct (ok i) eqn:Ei; auto. elim Hn. unfold funit. destruct (Nat.eqb_spec i j); [lia|]. rewrite lc_cong0; [reflexivity|].
    intros l Hl. destruct (cong_dec p (b j l) 0) as [E|E]; [rewrite E; apply cong_eq; ring|].
    destruct (Hb j ltac:(lia) Eo l ltac:(lia) E) as [_ Ol]. destruct (HW l Hl Ol) as (_ & X & _).
    destruct (cong_dec p (W l i) 0) as [Y|Y]; [rewrite Y; apply cong_eq; ring|]. specialize (X i Y). congruence.
  - intros i. rewrite (HV' j i ltac:(lia) Eo). rewrite lc_add, lc_unit, lc_lc by lia.
    apply cong_add; [reflexivity|]. rewrite (lc_extend p n j (b j) V' i); [|lia|].
    + unfold lc at 1 2. apply Zsum_cong. intros l Hl. destruct (cong_dec p (b j l) 0) as [E|E]; [rewrite E; apply cong_eq; ring|].
      destruct (Hb j ltac:(lia) Eo l ltac:(lia) E) as [_ Ol]. destruct (HW l Hl Ol) as (_ & _ & X). rewrite X. reflexivity.
    + intros l Hl. destruct (cong_dec p (b j l) 0) as [|E]; auto. destruct (Hb j ltac:(lia) Eo l ltac:(lia) E). lia.
Qed.

Lemma qindep_tri : qindep n V ok -> qindep n V' ok.
Proof.
  intros HI c Hc Hz. destruct (back n (le_n n)) as (W & HW).
  assert (H0 : forall j, (j < n)%nat -> cong p (lc n c W j) 0).
  { apply HI.
    - intros i Hi Hn. destruct (ok i) eqn:Ei; auto. elim Hn. apply lc_cong0. intros l Hl.
      destruct (cong_dec p (c l) 0) as [E|E]; [rewrite E; apply cong_eq; ring|].
      destruct (HW l Hl (Hc l Hl E)) as (_ & X & _).
      destruct (cong_dec p (W l i) 0) as [Y|Y]; [rewrite Y; apply cong_eq; ring|]. specialize (X i Y). congruence.
    - apply (U_cong (lc n c V')); auto. intros i. rewrite lc_lc. unfold lc at 1 2. apply Zsum_cong. intros l Hl.
      destruct (cong_dec p (c l) 0) as [E|E]; [rewrite E; apply cong_eq; ring|].
      destruct (HW l Hl (Hc l Hl E)) as (_ & _ & X). rewrite X. reflexivity. }
  (* the highest nonzero coefficient *)
  assert (Hd : forall d j, (j < n)%nat -> (n - j <= d)%nat -> cong p (c j) 0).
  { induction d as [|d IH]; intros j Hj Hd; [lia|].
    destruct (cong_dec p (c j) 0) as [|E]; auto. exfalso.
    destruct (HW j Hj (Hc j Hj E)) as ((_ & T) & _).
    assert (X : cong p (c j * W j j) 0).
    { rewrite <- (H0 j Hj). unfold lc. symmetry. apply (Zsum_cong_single p n j (fun k => c k * W k j)); auto.
      intros l Hl Hlj. destruct (cong_dec p (c l) 0) as [Y|Y]; [rewrite Y; apply cong_eq; ring|].
      destruct (lt_eq_lt_dec l j) as [[Q|Q]|Q]; [|lia|].
      - destruct (HW l Hl (Hc l Hl Y)) as (TT & _). rewrite (tri_above p l (W l) j TT Q). apply cong_eq; ring.
      - elim Y. apply IH; lia. }
    apply cong0_mul in X; auto. tauto. }
  intros j Hj. apply (Hd n); lia.
Qed.
End Tri.
End QFam.

(** ** The invariants *)
Section RInv.
Variables (p : Z) (F : mat) (s : nat) (bA dA bB dB : nat -> Z).
Let m := nrows F.
Let n := ncols F.
Hypothesis Hp : prime p.
Hypothesis HF : wf_mat F.
Hypothesis Hs : (0 < s)%nat.
Hypothesis HbarA : forall i, (s <= i < n)%nat -> bA i < dA i.
Hypothesis Hsort : forall i j, (s <= i <= j)%nat -> (j < n)%nat -> bA i <= bA j.
Hypothesis Hbirth : forall j i, (j < n)%nat -> (i < m)%nat -> ~ cong p (fF F j i) 0 -> bB i <= bA j.
Hypothesis Hdeath : forall j i, (s <= j < n)%nat -> (i < m)%nat -> ~ cong p (fF F j i) 0 -> dB i <= dA j.

Notation alB := (alive m bB dB).

Lemma rB_lt r i : alB r i = true -> (i < m)%nat.
Proof. rewrite alive_iff. tauto. Qed.

Lemma rB_persist (v : fvec) r0 r r' : (forall i, (i < m)%nat -> ~ cong p (v i) 0 -> bB i <= r0) -> r0 <= r -> r <= r' ->
  zon p (alB r) v -> zon p (alB r') v.
Proof.
  intros Hv H1 H2 Hz. apply zon_intro. intros i Hi. apply alive_iff in Hi. destruct Hi as (Hi & Hb & Hd).
  destruct (cong_dec p (v i) 0) as [|E]; auto. apply (zon_at p (alB r)); auto. apply alive_iff. specialize (Hv i Hi E). lia.
Qed.

Lemma r_support (v : fvec) r : (forall i, (i < n)%nat -> ~ cong p (v i) 0 -> bA i <= r) ->
  forall i, (i < m)%nat -> ~ cong p (lc n v (fF F) i) 0 -> bB i <= r.
Proof.
  intros Hv i Hi Hn. destruct (Z_le_gt_dec (bB i) r); auto. elim Hn. apply lc_cong0. intros k Hk.
  destruct (cong_dec p (v k) 0) as [E|E]; [rewrite E; apply cong_eq; ring|].
  destruct (cong_dec p (fF F k i) 0) as [E'|E']; [rewrite E'; apply cong_eq; ring|].
  pose proof (Hbirth k i Hk Hi E'). specialize (Hv k Hk E). lia.
Qed.

Lemma r_dead_image r j : (s <= j < n)%nat -> dA j <= r -> zon p (alB r) (fF F j).
Proof.
  intros Hj Hd. apply zon_intro. intros i Hi. apply alive_iff in Hi. destruct Hi as (Hi & Hb & Hd').
  destruct (cong_dec p (fF F j i) 0) as [|E]; auto. pose proof (Hdeath j i Hj Hi E). lia.
Qed.

(** The part of a coefficient vector on the columns from [s] on, and its image. *)
Definition cut (v : fvec) : fvec := fun i => if Nat.ltb i s then 0 else v i.
Definition mv (ims : list icol) (j : nat) : fvec := lc n (cut (fT ims j)) (fF F).

Lemma cut_nz v i : ~ cong p (cut v i) 0 -> (s <= i)%nat /\ ~ cong p (v i) 0.
Proof. unfold cut. destruct (Nat.ltb_spec i s) as [H|H]; auto. intros X. elim X. reflexivity. Qed.

(** The submodule spanned by the columns before [s]. *)
Definition NB (r : Z) (u : fvec) : Prop :=
  exists d, (forall i, (i < n)%nat -> ~ cong p (d i) 0 -> (i < s)%nat /\ bA i <= r) /\
    forall i, alB r i = true -> cong p (u i) (lc n d (fF F) i).

Lemma NB_on r u v : (forall i, alB r i = true -> cong p (u i) (v i)) -> NB r u -> NB r v.
Proof. intros H (d & Hd & Hu). exists d. split; auto. intros i Hi. rewrite <- (H i Hi). auto. Qed.
Lemma NB_cong r u v : (forall i, cong p (u i) (v i)) -> NB r u -> NB r v.
Proof. intros H. apply NB_on. auto. Qed.

Definition okr (ims : list icol) (r : Z) (j : nat) : bool :=
  (Nat.leb s j && (bA j <=? r) && ((negb (pv ims j =? -1)) || (r <? ic_death (nth j ims dI))))%bool.

Lemma okr_iff ims r j : okr ims r j = true <-> (s <= j)%nat /\ bA j <= r /\ (pv ims j = -1 -> r < ic_death (nth j ims dI)).
Proof.
  unfold okr. rewrite !andb_true_iff, Nat.leb_le, Z.leb_le, orb_true_iff, Z.ltb_lt. destruct (Z.eqb_spec (pv ims j) (-1)); cbn [negb].
  - split; [intros ((H1 & H2) & [H3|H3]); [discriminate|auto]|]. intros (H1 & H2 & H3). auto.
  - split; [intros ((H1 & H2) & _)|intros (H1 & H2 & _)]; auto. repeat split; auto. intros; contradiction.
Qed.

Record RInv (done : list Z) (rho : Z) (ims : list icol) : Prop := {
  ri_len : length ims = n;
  ri_wf : forall j, (j < n)%nat -> wf_ic F (nth j ims dI);
  ri_birth : forall j, (j < n)%nat -> ic_birth (nth j ims dI) = bA j;
  ri_range : forall j, (j < n)%nat -> pv ims j = -2 \/ pv ims j = -1 \/ 0 <= pv ims j;
  ri_unborn : forall j, (j < n)%nat -> (pv ims j = -2 <-> rho < bA j);
  ri_FT : forall j, (j < n)%nat -> forall i, cong p (fC ims j i) (lc n (fT ims j) (fF F) i);
  ri_supp : forall j i, (j < n)%nat -> ~ cong p (fT ims j i) 0 -> (i <= j)%nat /\ (i = j \/ bA i <= rho);
  ri_tri : forall j, (j < n)%nat -> (pv ims j <> -1 \/ (s <= j)%nat) -> ~ cong p (fT ims j j) 0;
  ri_piv : forall j, (j < n)%nat -> 0 <= pv ims j -> is_piv p (on (alB rho) (fC ims j)) (Z.to_nat (pv ims j));
  ri_dist : forall i j, (i < n)%nat -> (j < n)%nat -> i <> j -> 0 <= pv ims i -> pv ims i <> pv ims j;
  ri_dd : forall j, (j < n)%nat -> pv ims j = -1 -> bA j <= ic_death (nth j ims dI) <= rho;
  ri_dead : forall j, (j < n)%nat -> pv ims j = -1 ->
     exists c, (forall i, ~ cong p (c i) 0 -> (i < j)%nat /\ bA i <= rho) /\
       forall r, rho <= r -> forall i, alB r i = true -> cong p (fF F j i) (lc n c (fF F) i);
  ri_strip : forall j, (s <= j < n)%nat -> pv ims j = -1 -> ic_death (nth j ims dI) <> dA j -> forall i, (i < s)%nat -> cong p (fT ims j i) 0;
  ri_past : forall r, In r done -> qindep p (NB r) n (mv ims) (okr ims r) /\
     forall i, (s <= i < n)%nat -> bA i <= r -> qgens p (NB r) n (mv ims) (fun j => okr ims r j && Nat.leb j i) (fF F i)
}.

(** *** Killing the columns of dying generators *)
Section Kill.
Variables (done : list Z) (rho rad : Z) (ims : list icol) (dyA : list nat).
Hypothesis HI : RInv done rho ims.
Hypothesis Hnext : next F bA dA bB dB done rho rad.
Hypothesis HdyA : forall i, In i dyA <-> (i < n)%nat /\ dA i = rad.

Let kims := map (rel_kill s dyA rad) (enum ims).

Lemma enum_length {A} (l : list A) : length (enum l) = length l.
Proof. unfold enum. rewrite combine_length, seq_length. lia. Qed.
Lemma nth_enum {A} (l : list A) j d d0 : (j < length l)%nat -> nth j (enum l) (d0, d) = (j, nth j l d).
Proof.
  intros H. unfold enum. rewrite combine_nth by (rewrite seq_length; auto). 
  rewrite (nth_indep _ d0 0%nat) by (rewrite seq_length; auto). rewrite seq_nth by auto. reflexivity.
Qed.

Definition hit (j : nat) : bool := (memn j dyA && Nat.leb s j && negb (pv ims j =? -1))%bool.

Lemma kims_nth j : (j < n)%nat -> nth j kims dI = if hit j then set_piv (set_death (nth j ims dI) rad) (-1) else nth j ims dI.
Proof.
  intros Hj. unfold kims. rewrite (nth_map _ (enum ims) j (0%nat, dI)) by (rewrite enum_length, (ri_len _ _ _ HI); auto).
  rewrite nth_enum by (rewrite (ri_len _ _ _ HI); auto). reflexivity.
Qed.
Lemma kims_len : length kims = n.
Proof. unfold kims. rewrite map_length, enum_length. apply HI. Qed.

Lemma kims_C j i : (j < n)%nat -> fC kims j i = fC ims j i.
Proof. intros Hj. unfold fC. rewrite kims_nth by auto. destruct (hit j); reflexivity. Qed.
Lemma kims_T j i : (j < n)%nat -> fT kims j i = fT ims j i.
Proof. intros Hj. unfold fT. rewrite kims_nth by auto. destruct (hit j); reflexivity. Qed.
Lemma kims_pv j : (j < n)%nat -> pv kims j = if hit j then -1 else pv ims j.
Proof. intros Hj. unfold pv. rewrite kims_nth by auto. destruct (hit j); reflexivity. Qed.
Lemma kims_death j : (j < n)%nat -> ic_death (nth j kims dI) = if hit j then rad else ic_death (nth j ims dI).
Proof. intros Hj. rewrite kims_nth by auto. destruct (hit j); reflexivity. Qed.
Lemma hit_iff j : (j < n)%nat -> (hit j = true <-> (s <= j)%nat /\ dA j = rad /\ pv ims j <> -1).
Proof.
  intros Hj. unfold hit. rewrite !andb_true_iff, memn_In, HdyA, Nat.leb_le, negb_true_iff, Z.eqb_neq. tauto.
Qed.

(** *** The loop over the image columns *)
Variables (actB birA dyB : list nat).
Hypothesis HactB : StronglySorted lt actB.
Hypothesis HactB' : forall i, mem actB i = alB rad i.
Hypothesis HbirA : forall i, In i birA <-> (i < n)%nat /\ bA i = rad.
Hypothesis HdyB : forall i, In i dyB <-> (i < m)%nat /\ dB i = rad.

Local Lemma rzonB v : zon p (mem actB) v <-> zon p (alB rad) v.
Proof. split; intros H; apply zon_intro; intros i Hi; apply (zon_at p _ v i H); rewrite ?HactB' in *; auto. Qed.
Local Lemma rpivB v q : is_piv p (on (mem actB) v) q <-> is_piv p (on (alB rad) v) q.
Proof. split; intros H; apply (is_piv_veq p) with (2 := H); intros i; rewrite (on_ext _ _ v i HactB'); reflexivity. Qed.

Lemma r_stay j : (j < n)%nat -> 0 <= pv ims j -> ~ In (Z.to_nat (pv ims j)) dyB ->
  is_piv p (on (alB rad) (fC ims j)) (Z.to_nat (pv ims j)).
Proof.
  intros Hj H0 Hd. set (q := Z.to_nat (pv ims j)) in *. destruct (ri_piv _ _ _ HI j Hj H0) as [Q1 Q2]. fold q in Q1, Q2.
  destruct Hnext as (N1 & N2 & N3 & N4).
  destruct (on_nz p _ _ _ Q1) as [Hq Qn].
  assert (Hbj : bA j <= rho).
  { destruct (Z_le_gt_dec (bA j) rho) as [|X]; auto. assert (Y : rho < bA j) by lia. apply (ri_unborn _ _ _ HI j Hj) in Y. lia. }
  assert (Hq' : alB rad q = true).
  { apply alive_iff in Hq. apply alive_iff. destruct Hq as (H1 & H2 & H3). destruct (N4 q H1) as [_ [X|X]]; [lia|].
    split; auto. split; [lia|]. assert (dB q <> rad) by (intros E; apply Hd, HdyB; auto). lia. }
  split.
  - unfold on. rewrite Hq'. auto.
  - intros i Hi. specialize (Q2 i Hi). unfold on in *. destruct (alB rad i) eqn:E; [|reflexivity].
    destruct (cong_dec p (fC ims j i) 0) as [|Hn]; auto.
    assert (alB rho i = true).
    { apply alive_iff in E. apply alive_iff. rewrite (ri_FT _ _ _ HI j Hj i) in Hn.
      pose proof (r_support (fT ims j) rho) as X. specialize (X ltac:(intros k Hk Ek; destruct (ri_supp _ _ _ HI j k Hj Ek) as [_ [->|Y]]; auto) i ltac:(tauto) Hn). lia. }
    rewrite H in Q2. auto.
Qed.

Lemma count_alive_le l : (count_alive l <= length l)%nat.
Proof. unfold count_alive. induction l as [|c l IH]; cbn; [lia|]. destruct (negb _); cbn; lia. Qed.

Lemma rel_phase_inv : exists ims2 newp ker2,
  foldM (im_step F actB dyA birA dyB rad p s n false) kims ([], [], []) = Ok (ims2, newp, ker2) /\
  RInv (done ++ [rad]) rad ims2 /\ ker2 = [].
Proof.
  destruct Hnext as (N1 & N2 & N3 & N4).
  assert (Hhit : forall j, (j < n)%nat -> (hit j = true <-> (s <= j)%nat /\ dA j = rad /\ pv ims j <> -1)) by (apply hit_iff).
  destruct (im_phase p F actB dyA birA dyB rad s n Hp HF HactB) with (ims := kims) (ker := @nil kcol)
    as (ims2 & newp & ker2 & E & Hlen & G & Hcnt); auto.
  { intros i Hi. apply (rB_lt rad). rewrite <- HactB'. apply memn_In. auto. }
  { apply kims_len. }
  { intros j Hj. rewrite kims_nth by auto. pose proof (ri_wf _ _ _ HI j Hj) as W. destruct (hit j); auto. }
  { intros j Hj H0 Hd _. rewrite kims_pv in * by auto. destruct (hit j); [lia|]. 
    apply rpivB. apply (is_piv_veq p (on (alB rad) (fC ims j))).
    - intros i. unfold on. destruct (alB rad i); [rewrite kims_C by auto|]; reflexivity.
    - apply r_stay; auto. }
  { intros i j Hi Hj Hij H0. rewrite !kims_pv in * by auto. destruct (hit i); [lia|].
    destruct (hit j); [lia|]. apply (ri_dist _ _ _ HI); auto. }
  { intros j Hj Hb. apply HbirA in Hb. rewrite kims_pv by auto. destruct (hit j) eqn:Eh.
    - apply Hhit in Eh; auto. pose proof (HbarA j ltac:(lia)). lia.
    - apply (ri_unborn _ _ _ HI j Hj). lia. }
  { intros j Hj. rewrite kims_pv by auto. destruct (hit j); auto. apply HI; auto. }
  { cbn [length]. rewrite <- kims_len. apply count_alive_le. }
  fold n in Hlen.
  exists ims2, newp, ker2. split; [exact E|].
  destruct G as [Gc Gd _ _ (js & Ek & Hjs & Hj)]. rewrite Hlen in *.
  assert (Hker : ker2 = []).
  { rewrite Ek. destruct js as [|x js]; [reflexivity|]. exfalso. specialize (Hj x). destruct Hj as [Hj _]. destruct Hj as (_ & X & _); [left; auto|lia]. }
  split; [|exact Hker]. clear Ek Hjs Hj Hker js Hcnt E.
  (* what happened to each column *)
  assert (Hcol : forall j, (j < n)%nat -> exists b pre pret,
    (forall i, b i <> 0 -> (i < j)%nat /\ 0 <= pv ims2 i) /\
    (forall i, cong p (pre i) (fC ims j i + lc j b (fC ims2) i)) /\
    (forall i, cong p (pret i) (fT ims j i + lc j b (fT ims2) i)) /\
    wf_ic F (nth j ims2 dI) /\ ic_birth (nth j ims2 dI) = bA j /\
    (  (0 <= pv ims2 j /\ is_piv p (on (alB rad) (fC ims2 j)) (Z.to_nat (pv ims2 j)) /\ pv ims j <> -1 /\ (pv ims j = -2 -> bA j = rad) /\
         (forall i, pre i = fC ims2 j i) /\ (forall i, pret i = fT ims2 j i)) \/
       (pv ims j = -1 /\ nth j ims2 dI = nth j ims dI /\ (forall i, pret i = fT ims2 j i)) \/
       (pv ims2 j = -1 /\ (s <= j)%nat /\ dA j = rad /\ pv ims j <> -1 /\ ic_death (nth j ims2 dI) = rad /\
         (forall i, fC ims2 j i = fC ims j i) /\ (forall i, fT ims2 j i = fT ims j i) /\ (forall i, pret i = fT ims2 j i)) \/
       (pv ims j = -2 /\ bA j <> rad /\ nth j ims2 dI = nth j ims dI /\ (forall i, pret i = fT ims2 j i)) \/
       (pv ims2 j = -1 /\ pv ims j <> -1 /\ (pv ims j = -2 -> bA j = rad) /\ ic_death (nth j ims2 dI) = rad /\
         zon p (alB rad) pre /\ (forall i, fT ims2 j i = cut pret i) /\ (forall i, cong p (fC ims2 j i) (lc n (fT ims2 j) (fF F) i))))).
  { intros j Hj. destruct (Gc j Hj) as (pre & pret & [Hw Hbi (b & B1 & B2 & B3) Cs]).
    exists b, pre, pret. split; auto. split; [intros i; rewrite B2, kims_C by auto; reflexivity|].
    split; [intros i; rewrite B3, kims_T by auto; reflexivity|]. split; [exact Hw|].
    split. { rewrite Hbi. rewrite kims_nth by auto. destruct (hit j); apply (ri_birth _ _ _ HI j Hj). }
    rewrite (kims_pv j Hj) in Cs. rewrite (kims_nth j Hj) in Cs.
    destruct (hit j) eqn:Eh.
    - apply Hhit in Eh; auto. destruct Eh as (Hsj & HdAj & Hm).
      destruct Cs as [(_ & _ & _ & _ & _ & X & _)|[(C1 & _ & C3 & C4)|(_ & X & _)]]; [lia| |lia].
      right; right; left. unfold pv, fC, fT in *. rewrite C1 in *. cbn. repeat split; auto.
    - destruct Cs as [(C1 & C2 & C3 & C4 & C5 & C6 & C7)|[(C1 & C2 & C3 & C4)|(C1 & C2 & C3 & C4 & C5 & _ & C7)]].
      + left. split; auto. split; [apply rpivB; exact C2|]. split; auto. split; [intros X; apply HbirA; auto|]. auto.
      + destruct C2 as [C2|[C2 C2']]; [right; left; auto|]. right; right; right; left. split; auto. split; auto.
        intros X. apply C2'. apply HbirA. auto.
      + right; right; right; right. destruct (C7 Hs) as [C8 C9]. split; auto. split; auto. split; [intros X; apply HbirA; auto|]. split; auto.
        split; [apply rzonB; auto|]. split; auto. }
  assert (Hborn : forall j, (j < n)%nat -> (pv ims2 j = -2 <-> rad < bA j)).
  { intros j Hj. pose proof (ri_unborn _ _ _ HI j Hj) as Hu. destruct (N3 j Hj) as [X _].
    destruct (Hcol j Hj) as (b & pre & pret & _ & _ & _ & _ & _ & [(C1 & _ & C2 & C3 & _)|[(C1 & C2 & _)|[(C1 & C2 & C3 & _)|[(C1 & C2 & C3 & _)|(C1 & C2 & C3 & _)]]]]).
    - split; [lia|]. intros Hr. assert (Y : pv ims j = -2) by (apply Hu; lia). specialize (C3 Y). lia.
    - unfold pv in *. rewrite C2. split; [lia|]. intros Hr. assert (Y : ic_piv (nth j ims dI) = -2) by (apply Hu; lia). lia.
    - split; [lia|]. intros Hr. pose proof (HbarA j ltac:(lia)). lia.
    - unfold pv in *. rewrite C3. split; auto. intros _. apply Hu in C1. lia.
    - split; [lia|]. intros Hr. assert (Y : pv ims j = -2) by (apply Hu; lia). specialize (C3 Y). lia. }
  assert (Hrange : forall j, (j < n)%nat -> pv ims2 j = -2 \/ pv ims2 j = -1 \/ 0 <= pv ims2 j).
  { intros j Hj. destruct (Hcol j Hj) as (b & pre & pret & _ & _ & _ & _ & _ & [(C1 & _)|[(C1 & C2 & _)|[(C1 & _)|[(C1 & C2 & C3 & _)|(C1 & _)]]]]); auto;
      unfold pv in *; rewrite ?C2, ?C3; auto. }
  assert (Hbl : forall j, (j < n)%nat -> 0 <= pv ims2 j -> bA j <= rad).
  { intros j Hj H0. destruct (Z_le_gt_dec (bA j) rad); auto. assert (Y : pv ims2 j = -2) by (apply Hborn; auto; lia). lia. }
  (* supports *)
  assert (Hprs : forall j b pret, (j < n)%nat -> (forall i, b i <> 0 -> (i < j)%nat /\ 0 <= pv ims2 i) ->
     (forall i, cong p (pret i) (fT ims j i + lc j b (fT ims2) i)) ->
     (forall l i, (l < j)%nat -> ~ cong p (fT ims2 l i) 0 -> (i <= l)%nat /\ (i = l \/ bA i <= rad)) ->
     (forall i, ~ cong p (pret i) 0 -> (i <= j)%nat /\ (i = j \/ bA i <= rad)) /\ cong p (pret j) (fT ims j j)).
  { intros j b pret Hj B1 B3 IH. split.
    - intros i Hn. rewrite B3 in Hn.
      destruct (cong_dec p (fT ims j i) 0) as [Z0|Z0].
      + destruct (cong_dec p (lc j b (fT ims2) i) 0) as [Z1|Z1]; [elim Hn; rewrite Z0, Z1; reflexivity|].
        assert (X : exists l, (l < j)%nat /\ b l <> 0 /\ ~ cong p (fT ims2 l i) 0).
        { clear -Z1. unfold lc in Z1. revert Z1. generalize (j). intros k. induction k as [|k IH]; cbn; intros H.
          - elim H. reflexivity.
          - destruct (cong_dec p (Zsum k (fun k => b k * fT ims2 k i)) 0) as [Y|Y].
            + exists k. split; [lia|]. split.
              * intros Y'. apply H. rewrite Y, Y'. apply cong_eq; ring.
              * intros Y'. apply H. rewrite Y, Y'. apply cong_eq; ring.
            + destruct (IH Y) as (l & H1 & H2 & H3). exists l. split; [lia|auto]. }
        destruct X as (l & Hl & Hbl0 & Hn'). destruct (IH l i Hl Hn') as [H1 H2]. split; [lia|]. right.
        destruct H2 as [->|H2]; auto. apply Hbl; [lia|]. apply B1; auto.
      + destruct (ri_supp _ _ _ HI j i Hj Z0) as [H1 [H2|H2]]; split; auto. right. lia.
    - rewrite B3. rewrite lc_cong0; [apply cong_eq; ring|]. intros l Hl.
      destruct (cong_dec p (fT ims2 l j) 0) as [Y|Y]; [rewrite Y; apply cong_eq; ring|]. destruct (IH l j Hl Y). lia. }
  assert (Hsupp : forall j i, (j < n)%nat -> ~ cong p (fT ims2 j i) 0 -> (i <= j)%nat /\ (i = j \/ bA i <= rad)).
  { intros j. induction j as [j IH] using lt_wf_ind. intros i Hj Hn.
    destruct (Hcol j Hj) as (b & pre & pret & B1 & B2 & B3 & _ & _ & Cs).
    destruct (Hprs j b pret Hj B1 B3) as [P1 _]. { intros l k Hl Hk. apply (IH l Hl k); auto. lia. }
    destruct Cs as [(_ & _ & _ & _ & _ & C)|[(_ & _ & C)|[(_ & _ & _ & _ & _ & _ & _ & C)|[(_ & _ & _ & C)|(_ & _ & _ & _ & _ & C & _)]]]];
      try (rewrite <- C in Hn; apply P1; auto).
    rewrite C in Hn. apply cut_nz in Hn. apply P1; tauto. }
  assert (Hprs' : forall j b pret, (j < n)%nat -> (forall i, b i <> 0 -> (i < j)%nat /\ 0 <= pv ims2 i) ->
     (forall i, cong p (pret i) (fT ims j i + lc j b (fT ims2) i)) ->
     (forall i, ~ cong p (pret i) 0 -> (i <= j)%nat /\ (i = j \/ bA i <= rad)) /\ cong p (pret j) (fT ims j j)).
  { intros j b pret Hj B1 B3. apply (Hprs j b pret Hj B1 B3). intros l i Hl. apply Hsupp. lia. }
  clear Hprs.
  assert (Htri : forall j, (j < n)%nat -> (pv ims2 j <> -1 \/ (s <= j)%nat) -> ~ cong p (fT ims2 j j) 0).
  { intros j Hj Ho. destruct (Hcol j Hj) as (b & pre & pret & B1 & B2 & B3 & _ & _ & Cs). destruct (Hprs' j b pret Hj B1 B3) as [_ P2].
    pose proof (ri_tri _ _ _ HI j Hj) as Ht.
    destruct Cs as [(C1 & _ & C2 & _ & _ & C)|[(C1 & C2 & C)|[(_ & Hsj & _ & _ & _ & _ & _ & C)|[(C1 & _ & _ & C)|(C1 & C2 & _ & _ & _ & C & _)]]]];
      try (rewrite <- C, P2; apply Ht; auto; fail).
    - rewrite <- C, P2. apply Ht. unfold pv in Ho. rewrite C2 in Ho. auto.
    - rewrite <- C, P2. apply Ht. left. lia.
    - rewrite C. unfold cut. destruct (Nat.ltb_spec j s); [lia|]. rewrite P2. apply Ht. auto. }
  (* columns are images of the coefficient vectors *)
  assert (HFTp : forall j b pre pret, (j < n)%nat -> (forall i, b i <> 0 -> (i < j)%nat /\ 0 <= pv ims2 i) ->
     (forall i, cong p (pre i) (fC ims j i + lc j b (fC ims2) i)) -> (forall i, cong p (pret i) (fT ims j i + lc j b (fT ims2) i)) ->
     (forall l, (l < j)%nat -> forall i, cong p (fC ims2 l i) (lc n (fT ims2 l) (fF F) i)) ->
     forall i, cong p (pre i) (lc n pret (fF F) i)).
  { intros j b pre pret Hj B1 B2 B3 IH i. rewrite B2, (ri_FT _ _ _ HI j Hj i).
    rewrite (lc_cong p n pret (fun x => fT ims j x + lc j b (fT ims2) x) (fF F) (fF F) i); [|intros; apply B3|reflexivity].
    rewrite lc_add, lc_lc. rewrite (lc_cong p j b b (fC ims2) (fun l => lc n (fT ims2 l) (fF F)) i); [reflexivity|reflexivity|]. intros l Hl. apply IH; auto. }
  assert (HFT : forall j, (j < n)%nat -> forall i, cong p (fC ims2 j i) (lc n (fT ims2 j) (fF F) i)).
  { intros j. induction j as [j IH] using lt_wf_ind. intros Hj i.
    destruct (Hcol j Hj) as (b & pre & pret & B1 & B2 & B3 & _ & _ & Cs).
    destruct Cs as [(_ & _ & _ & _ & C1 & C2)|[(C0 & C1 & C)|[(_ & _ & _ & _ & _ & C1 & C2 & C)|[(_ & _ & C1 & C)|(_ & _ & _ & _ & _ & _ & C)]]]]; auto.
    - rewrite <- C1. rewrite (HFTp j b pre pret Hj B1 B2 B3); [|intros l Hl; apply IH; lia]. apply lc_cong; [|reflexivity].
      intros k Hk. rewrite C2. reflexivity.
    - unfold fC, fT. rewrite C1. apply (ri_FT _ _ _ HI j Hj).
    - rewrite C1, (ri_FT _ _ _ HI j Hj). apply lc_cong; [|reflexivity]. intros k Hk. rewrite C2. reflexivity.
    - unfold fC, fT. rewrite C1. apply (ri_FT _ _ _ HI j Hj). }
  assert (Hpiv : forall j, (j < n)%nat -> 0 <= pv ims2 j -> is_piv p (on (alB rad) (fC ims2 j)) (Z.to_nat (pv ims2 j))).
  { intros j Hj H0. destruct (Hcol j Hj) as (b & pre & pret & _ & _ & _ & _ & _ & [(_ & C & _)|[(C1 & C2 & _)|[(C1 & _)|[(C1 & _ & C3 & _)|(C1 & _)]]]]); auto;
      unfold pv in *; rewrite ?C2, ?C3 in H0; lia. }
  assert (Hdd : forall j, (j < n)%nat -> pv ims2 j = -1 -> bA j <= ic_death (nth j ims2 dI) <= rad).
  { intros j Hj Hm. assert (Hb : bA j <= rad). { destruct (Z_le_gt_dec (bA j) rad); auto. assert (Y : pv ims2 j = -2) by (apply Hborn; auto; lia). lia. }
    destruct (Hcol j Hj) as (b & pre & pret & _ & _ & _ & _ & _ & [(C1 & _)|[(C1 & C2 & _)|[(_ & _ & _ & _ & C & _)|[(C1 & _ & C3 & _)|(_ & _ & _ & C & _)]]]]); try lia.
    - rewrite C2. pose proof (ri_dd _ _ _ HI j Hj C1). lia.
    - unfold pv in *. rewrite C3 in Hm. lia. }
  assert (Hdead : forall j, (j < n)%nat -> pv ims2 j = -1 -> exists c, (forall i, ~ cong p (c i) 0 -> (i < j)%nat /\ bA i <= rad) /\
       forall r, rad <= r -> forall i, alB r i = true -> cong p (fF F j i) (lc n c (fF F) i)).
  { intros j Hj Hm. destruct (Hcol j Hj) as (b & pre & pret & B1 & B2 & B3 & _ & _ & Cs).
    destruct (Hprs' j b pret Hj B1 B3) as [P1 P2].
    destruct Cs as [(C1 & _)|[(C1 & C2 & _)|[(_ & C0 & C1 & _)|[(C1 & _ & C3 & _)|(C1 & C2 & C3 & _ & C4 & _)]]]].
    - lia.
    - destruct (ri_dead _ _ _ HI j Hj C1) as (c & H1 & H2). exists c. split.
      + intros i Hi. destruct (H1 i Hi). split; auto. lia.
      + intros r Hr. apply H2. lia.
    - exists fzero. split; [intros i Hi; elim Hi; reflexivity|]. intros r Hr i Hi.
      rewrite (zon_at p (alB r) (fF F j) i); [|apply r_dead_image; [lia|]; lia|auto]. unfold lc. rewrite Zsum_0; [reflexivity|]. intros; unfold fzero; ring.
    - unfold pv in *. rewrite C3 in Hm. lia.
    - assert (Hbj : bA j <= rad). { destruct (Z_le_gt_dec (bA j) rad); auto. assert (Y : pv ims2 j = -2) by (apply Hborn; auto; lia). lia. }
      assert (Hb' : forall i, (i < n)%nat -> ~ cong p (pret i) 0 -> bA i <= rad) by (intros i Hi Hn; destruct (P1 i Hn) as [_ [->|X]]; auto).
      assert (Hz : zon p (alB rad) (lc n pret (fF F))).
      { apply (zon_cong p (alB rad) pre); auto. intros i _. apply (HFTp j b); auto. intros l Hl. apply HFT. lia. }
      assert (Htj : ~ cong p (pret j) 0). { rewrite P2. apply (ri_tri _ _ _ HI); auto. }
      destruct (inv_exists p (pret j) Hp Htj) as [a Ha].
      exists (fun i => if Nat.ltb i j then - a * pret i else 0). split.
      + intros i Hi. destruct (Nat.ltb_spec i j) as [H|H]; [|elim Hi; reflexivity]. split; auto. apply Hb'; [lia|].
        intros X. apply Hi. rewrite X. apply cong_eq; ring.
      + intros r Hr i Hi. assert (Hzr : zon p (alB r) (lc n pret (fF F))).
        { apply (rB_persist _ rad rad r); auto; [|lia]. apply r_support. auto. }
        pose proof (zon_at p (alB r) _ i Hzr Hi) as X.
        assert (Y : cong p (lc n pret (fF F) i) (pret j * fF F j i + lc n (fun k => if Nat.ltb k j then pret k else 0) (fF F) i)).
        { rewrite <- (lc_unit n j (fF F) i Hj) at 1. rewrite <- lc_scale, <- lc_add. apply lc_cong; [|reflexivity].
          intros k Hk. unfold funit. destruct (Nat.eqb_spec k j) as [->|Hkj]; [rewrite Nat.ltb_irrefl; apply cong_eq; ring|].
          destruct (Nat.ltb_spec k j); [apply cong_eq; ring|]. destruct (cong_dec p (pret k) 0) as [W|W]; [rewrite W; apply cong_eq; ring|].
          destruct (P1 k W). lia. }
        rewrite X in Y.
        assert (W : lc n (fun i => if Nat.ltb i j then - a * pret i else 0) (fF F) i = - a * lc n (fun k => if Nat.ltb k j then pret k else 0) (fF F) i).
        { rewrite <- lc_scale. unfold lc. apply Zsum_ext. intros k Hk. destruct (Nat.ltb k j); ring. }
        rewrite W. set (L := lc n (fun k => if Nat.ltb k j then pret k else 0) (fF F) i) in *.
        assert (Q : cong p (a * (pret j * fF F j i + L)) 0) by (rewrite <- Y; apply cong_eq; ring).
        replace (a * (pret j * fF F j i + L)) with (a * pret j * fF F j i + a * L) in Q by ring. rewrite Ha in Q.
        destruct Q as [z Q]. exists z. rewrite <- Q. ring. }
  assert (Hstrip : forall j, (s <= j < n)%nat -> pv ims2 j = -1 -> ic_death (nth j ims2 dI) <> dA j -> forall i, (i < s)%nat -> cong p (fT ims2 j i) 0).
  { intros j Hj Hm Hne i Hi. destruct (Hcol j ltac:(lia)) as (b & pre & pret & B1 & B2 & B3 & _ & _ & Cs).
    destruct Cs as [(C1 & _)|[(C1 & C2 & _)|[(_ & _ & C1 & _ & C2 & _)|[(C1 & _ & C3 & _)|(_ & _ & _ & _ & _ & C & _)]]]]; try lia.
    - unfold fT. rewrite C2 in *. apply (ri_strip _ _ _ HI j); auto.
    - unfold pv in *. rewrite C3 in Hm. lia.
    - rewrite C. unfold cut. destruct (Nat.ltb_spec i s); [reflexivity|lia]. }
  (* the change of the vectors [mv] *)
  assert (Hmv0 : forall l, (l < s)%nat -> (l < n)%nat -> forall i, cong p (mv ims2 l i) 0).
  { intros l Hl Hln i. unfold mv. apply lc_cong0. intros k Hk. unfold cut. destruct (Nat.ltb_spec k s); [apply cong_eq; ring|].
    destruct (cong_dec p (fT ims2 l k) 0) as [Y|Y]; [rewrite Y; apply cong_eq; ring|]. destruct (Hsupp l k Hln Y). lia. }
  assert (Hmv : exists b : nat -> nat -> Z, forall j, (j < n)%nat ->
     (forall i, (i < n)%nat -> ~ cong p (b j i) 0 -> (s <= i < j)%nat /\ 0 <= pv ims2 i) /\
     forall i, cong p (mv ims2 j i) (mv ims j i + lc n (b j) (mv ims2) i)).
  { apply (fin_choose (fun _ : nat => 0) n (fun j b => (forall i, (i < n)%nat -> ~ cong p (b i) 0 -> (s <= i < j)%nat /\ 0 <= pv ims2 i) /\
     forall i, cong p (mv ims2 j i) (mv ims j i + lc n b (mv ims2) i))).
    intros j Hj. destruct (Hcol j Hj) as (b & pre & pret & B1 & B2 & B3 & _ & _ & Cs).
    exists (fun i => if Nat.ltb i s then 0 else b i). split.
    - intros i Hi Hn. destruct (Nat.ltb_spec i s); [elim Hn; reflexivity|]. destruct (B1 i) as [H1 H2]; [intros X; apply Hn; rewrite X; reflexivity|]. auto.
    - assert (Ec : forall i, cut (fT ims2 j) i = cut pret i).
      { intros i. destruct Cs as [(_ & _ & _ & _ & _ & C)|[(_ & _ & C)|[(_ & _ & _ & _ & _ & _ & _ & C)|[(_ & _ & _ & C)|(_ & _ & _ & _ & _ & C & _)]]]];
          unfold cut; destruct (Nat.ltb_spec i s); auto. rewrite C. unfold cut. destruct (Nat.ltb_spec i s); [lia|reflexivity]. }
      intros i. unfold mv at 1.
      rewrite (lc_cong p n (cut (fT ims2 j)) (fun x => cut (fT ims j) x + lc j b (fun l => cut (fT ims2 l)) x) (fF F) (fF F) i); [| |reflexivity].
      + rewrite lc_add, lc_lc. fold (mv ims j). apply cong_add; [reflexivity|].
        rewrite (lc_extend p n j (fun i => if Nat.ltb i s then 0 else b i) (mv ims2) i); [|lia|].
        * unfold lc at 1 3. apply Zsum_cong. intros l Hl. fold (mv ims2 l). destruct (Nat.ltb_spec l s) as [H|H]; [|reflexivity].
          rewrite (Hmv0 l H) by lia. apply cong_eq; ring.
        * intros l Hl. destruct (Nat.ltb l s); [reflexivity|]. destruct (Z.eq_dec (b l) 0) as [->|X]; [reflexivity|]. destruct (B1 l X). lia.
      + intros k Hk. rewrite Ec. unfold cut at 1 2. destruct (Nat.ltb_spec k s) as [H|H].
        * unfold lc. rewrite Zsum_0; [reflexivity|]. intros l Hl. unfold cut. destruct (Nat.ltb_spec k s); [ring|lia].
        * rewrite B3. apply cong_add; [reflexivity|]. apply cong_eq. unfold lc. apply Zsum_ext. intros l Hl. unfold cut.
          destruct (Nat.ltb_spec k s); [lia|reflexivity]. }
  destruct Hmv as (b & Hb).
  assert (Hokr : forall r j, In r done -> (j < n)%nat -> okr ims r j = okr ims2 r j).
  { intros r j Hr Hj. specialize (N2 r Hr). apply Bool.eq_iff_eq_true. rewrite !okr_iff.
    destruct (Hcol j Hj) as (b0 & pre & pret & B1 & B2 & B3 & _ & _ & Cs).
    destruct Cs as [(C1 & _ & C2 & _)|[(C1 & C2 & _)|[(C0 & _ & C1 & C3 & C2 & _)|[(C1 & _ & C3 & _)|(C0 & C3 & _ & C2 & _)]]]].
    - split; intros (H1 & H2 & H3); repeat split; auto; intros; lia.
    - unfold pv in *. rewrite C2. tauto.
    - rewrite C2. split; intros (H1 & H2 & H3); repeat split; auto; intros; lia.
    - unfold pv in *. rewrite C3. tauto.
    - rewrite C2. split; intros (H1 & H2 & H3); repeat split; auto; intros; lia. }
  (* every generator is a combination of the living columns *)
  assert (Hspan : exists W : nat -> fvec, forall j, (j < n)%nat -> bA j <= rad ->
     (forall l, ~ cong p (W j l) 0 -> (l <= j)%nat /\ 0 <= pv ims2 l) /\ forall i, alB rad i = true -> cong p (fF F j i) (lc n (W j) (fC ims2) i)).
  { apply (fin_choose fzero n (fun j w => bA j <= rad ->
     (forall l, ~ cong p (w l) 0 -> (l <= j)%nat /\ 0 <= pv ims2 l) /\ forall i, alB rad i = true -> cong p (fF F j i) (lc n w (fC ims2) i))).
    intros j. induction j as [j IH] using lt_wf_ind. intros Hj.
    destruct (fin_choose fzero j (fun j w => bA j <= rad ->
      (forall l, ~ cong p (w l) 0 -> (l <= j)%nat /\ 0 <= pv ims2 l) /\ forall i, alB rad i = true -> cong p (fF F j i) (lc n w (fC ims2) i))) as (W & HW).
    { intros l Hl. apply IH; lia. }
    destruct (Z_le_gt_dec (bA j) rad) as [Hbj|Hbj]; [|exists fzero; intros; lia].
    assert (Hae : exists a e, (~ cong p a 0 -> 0 <= pv ims2 j) /\ (forall l, ~ cong p (e l) 0 -> (l < j)%nat /\ bA l <= rad) /\
       forall i, alB rad i = true -> cong p (fF F j i) (a * fC ims2 j i + lc n e (fF F) i)).
    { destruct (Hrange j Hj) as [R|[R|R]]; [apply Hborn in R; auto; lia| |].
      - destruct (Hdead j Hj R) as (c & H1 & H2). exists 0, c. split; [intros X; elim X; reflexivity|]. split; auto.
        intros i Hi. rewrite (H2 rad ltac:(lia) i Hi). apply cong_eq; ring.
      - assert (Ht : ~ cong p (fT ims2 j j) 0) by (apply Htri; auto; left; lia).
        destruct (inv_exists p (fT ims2 j j) Hp Ht) as [a Ha].
        exists a, (fun l => if Nat.ltb l j then - a * fT ims2 j l else 0). split; auto. split.
        + intros l Hn. destruct (Nat.ltb_spec l j) as [H|H]; [|elim Hn; reflexivity]. split; auto.
          assert (X : ~ cong p (fT ims2 j l) 0) by (intros X; apply Hn; rewrite X; apply cong_eq; ring).
          destruct (Hsupp j l Hj X) as [_ [->|Y]]; auto.
        + intros i Hi. rewrite (HFT j Hj i). rewrite <- lc_scale, <- lc_add. rewrite <- (lc_unit n j (fF F) i Hj) at 1. apply lc_cong; [|reflexivity].
          intros k Hk. unfold funit. destruct (Nat.eqb_spec k j) as [->|Hkj].
          * rewrite Nat.ltb_irrefl, Ha. apply cong_eq; ring.
          * destruct (Nat.ltb_spec k j); [apply cong_eq; ring|]. destruct (cong_dec p (fT ims2 j k) 0) as [Y|Y]; [rewrite Y; apply cong_eq; ring|].
            destruct (Hsupp j k Hj Y). lia. }
    destruct Hae as (a & e & Ha & He & Hv).
    exists (fun l => a * funit j l + lc j e W l). intros _. split.
    - intros l Hn. destruct (Nat.eq_dec l j) as [->|Hlj].
      + destruct (cong_dec p a 0) as [Y|Y]; [|auto]. elim Hn. rewrite Y. rewrite lc_cong0; [apply cong_eq; ring|].
        intros k Hk. destruct (cong_dec p (e k) 0) as [E|E]; [rewrite E; apply cong_eq; ring|].
        destruct (He k E) as [_ Hbk]. destruct (HW k Hk Hbk) as [X _].
        destruct (cong_dec p (W k j) 0) as [E'|E']; [rewrite E'; apply cong_eq; ring|]. destruct (X j E'). lia.
      + assert (X : ~ cong p (lc j e W l) 0).
        { intros X. apply Hn. rewrite X. unfold funit. destruct (Nat.eqb_spec l j); [lia|]. apply cong_eq; ring. }
        assert (Y : exists k, (k < j)%nat /\ ~ cong p (e k) 0 /\ ~ cong p (W k l) 0).
        { clear -X. unfold lc in X. revert X. generalize j. intros k. induction k as [|k IH]; cbn; intros H.
          - elim H. reflexivity.
          - destruct (cong_dec p (Zsum k (fun k => e k * W k l)) 0) as [Y|Y].
            + exists k. split; [lia|]. split.
              * intros Y'. apply H. rewrite Y, Y'. apply cong_eq; ring.
              * intros Y'. apply H. rewrite Y, Y'. apply cong_eq; ring.
            + destruct (IH Y) as (z & H1 & H2 & H3). exists z. split; [lia|auto]. }
        destruct Y as (k & Hk & E & E'). destruct (He k E) as [_ Hbk]. destruct (HW k Hk Hbk) as [Q _]. destruct (Q l E'). split; [lia|auto].
    - intros i Hi. rewrite (Hv i Hi). rewrite lc_add, lc_scale, lc_unit, lc_lc by auto. apply cong_add; [reflexivity|].
      rewrite (lc_extend p n j e (fF F) i); [|lia|].
      + unfold lc at 1 2. apply Zsum_cong. intros k Hk. destruct (cong_dec p (e k) 0) as [E|E]; [rewrite E; apply cong_eq; ring|].
        destruct (He k E) as [_ Hbk]. destruct (HW k Hk Hbk) as [_ Q]. rewrite (Q i Hi). reflexivity.
      + intros l Hl. destruct (cong_dec p (e l) 0) as [|E]; auto. destruct (He l E). lia. }
  destruct Hspan as (W & HW).
  assert (Hokrad : forall j, (j < n)%nat -> okr ims2 rad j = true -> (s <= j)%nat /\ 0 <= pv ims2 j).
  { intros j Hj Ho. apply okr_iff in Ho. destruct Ho as (H1 & H2 & H3). split; auto.
    destruct (Hrange j Hj) as [R|[R|R]]; auto.
    - apply Hborn in R; auto. lia.
    - pose proof (Hdd j Hj R). specialize (H3 R). lia. }
  assert (Hindep : indep p (alB rad) n (fC ims2) (fun j => 0 <=? pv ims2 j)).
  { apply (indep_piv p (alB rad) Hp n (fC ims2) _ (fun j => Z.to_nat (pv ims2 j))).
    - intros j Hj Ho. apply Z.leb_le in Ho. auto.
    - intros i j Hi Hj Ho Ho' _ _ Eq. apply Z.leb_le in Ho, Ho'. destruct (Nat.eq_dec i j) as [|Hij]; auto. exfalso.
      apply (Gd i j Hi Hj Hij); auto. lia. }
  assert (Hnz : forall j, (j < n)%nat -> 0 <= pv ims2 j -> ~ zon p (alB rad) (fC ims2 j)).
  { intros j Hj H0 Hz. destruct (Hpiv j Hj H0) as [Q _]. apply Q. apply Hz. }
  assert (Hqi : qindep p (NB rad) n (mv ims2) (okr ims2 rad)).
  { intros c Hc (d & Hd & Hu).
    set (np := fun (v : fvec) i => if Nat.ltb i s then v i else 0).
    set (d' := fun i => d i + lc n c (fun l => np (fT ims2 l)) i).
    assert (Hd' : forall i, (i < n)%nat -> ~ cong p (d' i) 0 -> (i < s)%nat /\ bA i <= rad).
    { intros i Hi Hn. destruct (cong_dec p (d i) 0) as [Y|Y]; [|apply Hd; auto].
      assert (X : ~ cong p (lc n c (fun l => np (fT ims2 l)) i) 0) by (intros X; apply Hn; unfold d'; rewrite X, Y; reflexivity).
      destruct (le_lt_dec s i) as [H|H].
      - elim X. apply lc_cong0. intros k Hk. unfold np. destruct (Nat.ltb_spec i s); [lia|]. apply cong_eq; ring.
      - split; auto. destruct (Z_le_gt_dec (bA i) rad) as [|Hgt]; auto. elim X. apply lc_cong0. intros k Hk.
        destruct (cong_dec p (c k) 0) as [E|E]; [rewrite E; apply cong_eq; ring|].
        destruct (Hokrad k Hk (Hc k Hk E)) as [K1 K2]. unfold np. destruct (Nat.ltb_spec i s); [|lia].
        destruct (cong_dec p (fT ims2 k i) 0) as [E'|E']; [rewrite E'; apply cong_eq; ring|].
        destruct (Hsupp k i Hk E') as [_ [->|Y']]; [specialize (Hbl k Hk K2)|]; lia. }
    assert (H1 : forall i, alB rad i = true -> cong p (lc n c (fC ims2) i) (lc n d' (fF F) i)).
    { intros i Hi. unfold d'. rewrite lc_add, lc_lc. rewrite <- (Hu i Hi). unfold lc at 1 2 3. rewrite <- Zsum_add. apply Zsum_cong. intros k Hk.
      rewrite (HFT k Hk i). unfold mv. rewrite <- Z.mul_add_distr_l, <- lc_add. apply cong_mul; [reflexivity|]. apply lc_cong; [|reflexivity].
      intros x Hx. unfold cut, np. destruct (Nat.ltb x s); apply cong_eq; ring. }
    set (e := lc n d' W).
    assert (He : forall l, ~ cong p (e l) 0 -> (l < s)%nat /\ 0 <= pv ims2 l).
    { intros l Hn. unfold e in Hn.
      assert (Y : exists k, (k < n)%nat /\ ~ cong p (d' k) 0 /\ ~ cong p (W k l) 0).
      { clear -Hn. unfold lc in Hn. revert Hn. generalize n. intros k. induction k as [|k IH]; cbn; intros H.
        - elim H. reflexivity.
        - destruct (cong_dec p (Zsum k (fun k => d' k * W k l)) 0) as [Y|Y].
          + exists k. split; [lia|]. split.
            * intros Y'. apply H. rewrite Y, Y'. apply cong_eq; ring.
            * intros Y'. apply H. rewrite Y, Y'. apply cong_eq; ring.
          + destruct (IH Y) as (z & H1 & H2 & H3). exists z. split; [lia|auto]. }
      destruct Y as (k & Hk & E & E'). destruct (Hd' k Hk E) as [K1 K2]. destruct (HW k Hk K2) as [Q _]. destruct (Q l E'). split; [lia|auto]. }
    assert (H0 : forall j, (j < n)%nat -> cong p (c j - e j) 0).
    { apply Hindep.
      - intros j Hj Hn. assert (0 <= pv ims2 j).
        { destruct (cong_dec p (c j) 0) as [Y|Y].
          - apply He. intros X. apply Hn. rewrite X, Y. reflexivity.
          - apply Hokrad; auto. }
        split; [apply Z.leb_le; auto|apply Hnz; auto].
      - apply zon_intro. intros i Hi.
        assert (X : lc n (fun j => c j - e j) (fC ims2) i = lc n c (fC ims2) i - lc n e (fC ims2) i).
        { unfold lc. rewrite <- Zsum_sub. apply Zsum_ext. intros; ring. }
        rewrite X, (H1 i Hi). unfold e. rewrite lc_lc.
        assert (Y : cong p (lc n d' (fF F) i) (lc n d' (fun l => lc n (W l) (fC ims2)) i)).
        { unfold lc at 1 2. apply Zsum_cong. intros k Hk. destruct (cong_dec p (d' k) 0) as [E|E]; [rewrite E; apply cong_eq; ring|].
          destruct (Hd' k Hk E) as [K1 K2]. destruct (HW k Hk K2) as [_ Q]. rewrite (Q i Hi). reflexivity. }
        rewrite Y. apply cong_eq; ring. }
    intros j Hj. destruct (cong_dec p (c j) 0) as [|Hn]; auto. destruct (Hokrad j Hj (Hc j Hj Hn)) as [K1 K2].
    assert (X : cong p (e j) 0). { destruct (cong_dec p (e j) 0) as [|X]; auto. destruct (He j X). lia. }
    specialize (H0 j Hj). rewrite X in H0. rewrite <- H0. apply cong_eq; ring. }
  assert (Hqg : forall i, (s <= i < n)%nat -> bA i <= rad -> qgens p (NB rad) n (mv ims2) (fun j => okr ims2 rad j && Nat.leb j i) (fF F i)).
  { intros j Hj Hbj. destruct (HW j ltac:(lia) Hbj) as [W1 W2]. exists (cut (W j)). split.
    - intros l Hl Hn. apply cut_nz in Hn. destruct Hn as [H1 H2]. destruct (W1 l H2) as [H4 H3]. apply andb_true_iff. rewrite Nat.leb_le. split; auto. apply okr_iff. split; auto.
      split; auto. intros; lia.
    - exists (fun x => lc n (W j) (fT ims2) x - lc n (cut (W j)) (fun l => cut (fT ims2 l)) x). split.
      + intros x Hx Hn. destruct (le_lt_dec s x) as [H|H].
        * elim Hn. unfold lc. rewrite <- Zsum_sub. apply Zsum_cong0. intros l Hl. unfold cut.
          destruct (Nat.ltb_spec x s); [lia|]. destruct (Nat.ltb_spec l s); [|apply cong_eq; ring].
          destruct (cong_dec p (fT ims2 l x) 0) as [E|E]; [rewrite E; apply cong_eq; ring|]. destruct (Hsupp l x Hl E). lia.
        * split; auto. destruct (Z_le_gt_dec (bA x) rad) as [|Hgt]; auto. elim Hn. unfold lc. rewrite <- Zsum_sub. apply Zsum_cong0.
          intros l Hl. unfold cut. destruct (Nat.ltb_spec x s); [|lia].
          destruct (cong_dec p (W j l) 0) as [E|E]; [destruct (Nat.ltb l s); rewrite E; apply cong_eq; ring|].
          destruct (W1 l E) as [_ L2]. destruct (cong_dec p (fT ims2 l x) 0) as [E'|E']; [destruct (Nat.ltb l s); rewrite E'; apply cong_eq; ring|].
          destruct (Hsupp l x Hl E') as [_ [->|Y']]; [specialize (Hbl l Hl L2)|]; lia.
      + intros i Hi. rewrite (W2 i Hi).
        assert (X : lc n (fun x => lc n (W j) (fT ims2) x - lc n (cut (W j)) (fun l => cut (fT ims2 l)) x) (fF F) i =
           lc n (W j) (fun l => lc n (fT ims2 l) (fF F)) i - lc n (cut (W j)) (mv ims2) i).
        { rewrite lc_sub, !lc_lc. reflexivity. }
        rewrite X. apply cong_sub; [|reflexivity]. apply lc_cong; [reflexivity|]. intros k Hk. apply HFT; auto. }
  constructor; auto.
  - intros j Hj. destruct (Hcol j Hj) as (b0 & pre & pret & _ & _ & _ & X & _). exact X.
  - intros j Hj. destruct (Hcol j Hj) as (b0 & pre & pret & _ & _ & _ & _ & X & _). exact X.
  - intros r Hr. apply in_app_or in Hr. destruct Hr as [Hr|[<-|[]]]; [|auto].
    destruct (ri_past _ _ _ HI r Hr) as [Q1 Q2].
    assert (Hbo : forall j, (j < n)%nat -> okr ims2 r j = true -> forall i, (i < n)%nat -> ~ cong p (b j i) 0 -> (i < j)%nat /\ okr ims2 r i = true).
    { intros j Hj Ho i Hi Hn. destruct (Hb j Hj) as [B1 _]. destruct (B1 i Hi Hn) as [L1 L2]. split; [lia|].
      apply okr_iff in Ho. apply okr_iff. split; [lia|]. pose proof (Hsort i j ltac:(lia) Hj). split; [lia|]. intros; lia. }
    assert (Hbv : forall j i, (j < n)%nat -> okr ims2 r j = true -> cong p (mv ims2 j i) (mv ims j i + lc n (b j) (mv ims2) i)).
    { intros j i Hj _. apply Hb. auto. }
    split.
    + apply (qindep_tri p (NB r) Hp (NB_cong r) n (mv ims) (mv ims2) (okr ims2 r) b Hbo Hbv).
      apply (qindep_ok p (NB r) n (mv ims) (okr ims r)); auto. intros j Hj. rewrite (Hokr r j Hr Hj). auto.
    + intros i Hi Hbi. apply (qgens_tri p (NB r) (NB_cong r) n (mv ims) (mv ims2) (fun j => okr ims2 r j && Nat.leb j i) b).
      * intros j Hj Ho k Hk Hn. apply andb_true_iff in Ho. destruct Ho as [Ho Hji]. destruct (Hbo j Hj Ho k Hk Hn) as [K1 K2].
        split; auto. rewrite K2. apply Nat.leb_le in Hji. apply Nat.leb_le. lia.
      * intros j k Hj Ho. apply andb_true_iff in Ho. apply Hbv; tauto.
      * apply (qgens_ok p (NB r) n (mv ims) (fun j => okr ims r j && Nat.leb j i)); auto. intros j Hj. rewrite (Hokr r j Hr Hj). auto.
Qed.
End Kill.
End RInv.
