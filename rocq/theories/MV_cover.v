(** * Cubical covers are inputs for the spectral sequence *)
From Verif Require Import Base ListX PH_model Simp_model Spec_Simp Simp_lists Simp_diff Cover_model Spec_Cover Cover_grid Cover_nerve Cover_geom.
From Verif Require Import Basis_model Spec_Rips SS_model Spec_SS SS_inv Spec_E2.
From Coq Require Import QArith Qround Qabs Lqa Sorted.
Local Open Scope Z_scope.

(** ** Pairwise touching hypercubes lie in a box of maximal size *)
Fixpoint cap (div : list Z) : nat := match div with [] => 1 | d :: ds => ((if (d =? 1)%Z then 1 else 2) * cap ds)%nat end.

Lemma touch_refl a : touch a a.
Proof. unfold touch. induction a; constructor; auto. lia. Qed.
Lemma touch_sym a b : touch a b -> touch b a.
Proof. unfold touch. induction 1; constructor; auto. lia. Qed.

Lemma heads_near (P : list (list Z)) d ds : 1 <= d -> (forall a, In a P -> in_grid (d :: ds) a) -> (forall a b, In a P -> In b P -> touch a b) ->
  exists hs, NoDup hs /\ length hs = (if (d =? 1)%Z then 1 else 2)%nat /\ (forall h, In h hs -> 0 <= h < d) /\ (forall h k, In h hs -> In k hs -> Z.abs (h - k) <= 1) /\
    forall a, In a P -> In (hd 0 a) hs.
Proof.
  intros Hd Hg Ht. destruct (Z.eqb_spec d 1) as [->|Hne].
  - exists [0]. split; [repeat constructor; intros []|]. split; [reflexivity|]. split; [intros h [<-|[]]; lia|]. split; [intros h k [<-|[]] [<-|[]]; lia|].
    intros a Ha. specialize (Hg a Ha). inversion Hg; subst. cbn. lia.
  - assert (Hm : P = [] \/ exists a0, In a0 P /\ forall a, In a P -> hd 0 a0 <= hd 0 a).
    { clear. induction P as [|b P IHP]; auto. right. destruct IHP as [->|(a0 & Ha0 & Hm)].
      - exists b. split; [simpl; auto|]. intros a [<-|[]]. lia.
      - destruct (Z_le_gt_dec (hd 0 b) (hd 0 a0)).
        + exists b. split; [simpl; auto|]. intros a [<-|Ha]; [lia|]. specialize (Hm a Ha). lia.
        + exists a0. split; [simpl; auto|]. intros a [<-|Ha]; [lia|]. auto. }
    assert (H0 : exists h0, 0 <= h0 < d - 1 /\ forall a, In a P -> hd 0 a = h0 \/ hd 0 a = h0 + 1).
    { destruct Hm as [->|(a0 & Ha0 & Hm)]; [exists 0; split; [lia|intros a []]|].
      assert (R : forall a, In a P -> 0 <= hd 0 a < d) by (intros a Ha; specialize (Hg a Ha); inversion Hg; subst; cbn; lia).
      pose proof (R a0 Ha0) as R0. exists (if hd 0 a0 =? d - 1 then d - 2 else hd 0 a0).
      split; [destruct (Z.eqb_spec (hd 0 a0) (d - 1)); lia|]. intros a Ha. specialize (Hm a Ha). pose proof (R a Ha). specialize (Ht a a0 Ha Ha0).
      assert (Z.abs (hd 0 a - hd 0 a0) <= 1). { inversion Ht; subst; cbn; lia. }
      destruct (Z.eqb_spec (hd 0 a0) (d - 1)); lia. }
    destruct H0 as (h0 & Hh0 & Hh). exists [h0; h0 + 1]. split; [|split; [reflexivity|split; [|split]]].
    + constructor; [intros [|[]]; lia|]. constructor; [intros []|constructor].
    + intros h [<-|[<-|[]]]; lia.
    + intros h k [<-|[<-|[]]] [<-|[<-|[]]]; lia.
    + intros a Ha. destruct (Hh a Ha) as [->| ->]; cbn; auto.
Qed.

Lemma box div : Forall (fun d => 1 <= d) div -> forall P, (forall a, In a P -> in_grid div a) -> (forall a b, In a P -> In b P -> touch a b) ->
  exists B, NoDup B /\ length B = cap div /\ (forall a, In a B -> in_grid div a) /\ (forall a b, In a B -> In b B -> touch a b) /\ incl P B.
Proof.
  induction 1 as [|d ds Hd Hds IH]; intros P Hg Ht.
  - exists [[]]. split; [repeat constructor; auto|]. split; [reflexivity|]. split; [intros a [<-|[]]; constructor|]. split; [intros a b [<-|[]] [<-|[]]; constructor|].
    intros a Ha. specialize (Hg a Ha). inversion Hg. cbn. auto.
  - destruct (heads_near P d ds Hd Hg Ht) as (hs & N1 & L1 & G1 & T1 & I1).
    destruct (IH (map (@tl Z) P)) as (B & N2 & L2 & G2 & T2 & I2).
    { intros a Ha. apply in_map_iff in Ha. destruct Ha as (a' & <- & Ha). specialize (Hg a' Ha). inversion Hg; subst. auto. }
    { intros a b Ha Hb. apply in_map_iff in Ha, Hb. destruct Ha as (a' & <- & Ha), Hb as (b' & <- & Hb). specialize (Ht a' b' Ha Hb). inversion Ht; subst; cbn; auto; constructor. }
    exists (flat_map (fun h => map (cons h) B) hs).
    assert (HIn : forall a, In a (flat_map (fun h => map (cons h) B) hs) <-> exists h t, a = h :: t /\ In h hs /\ In t B).
    { intros a. rewrite in_flat_map. split.
      - intros (h & Hh & Ha). apply in_map_iff in Ha. destruct Ha as (t & <- & Ht'). eauto 6.
      - intros (h & t & -> & Hh & Ht'). exists h. split; auto. apply in_map. auto. }
    split; [|split; [|split; [|split]]].
    + clear - N1 N2. induction N1 as [|h hs Hno N1 IH]; [constructor|]. cbn [flat_map].
      assert (X : forall x, In x (map (cons h) B) -> ~ In x (flat_map (fun h => map (cons h) B) hs)).
      { intros x Hx Hx'. apply in_map_iff in Hx. destruct Hx as (t & <- & _). apply in_flat_map in Hx'. destruct Hx' as (h' & Hh' & Hx'). apply in_map_iff in Hx'. destruct Hx' as (t' & E & _). injection E as -> _. auto. }
      assert (Y : NoDup (map (cons h) B)). { apply NoDup_map_on; auto. intros a b _ _ E. injection E. auto. }
      revert X Y. generalize (map (cons h) B). intros l X Y. induction Y as [|x l Hx Y IHY]; [exact IH|]. cbn [app]. constructor.
      * rewrite in_app_iff. intros [?|Z]; auto. apply (X x); cbn; auto.
      * apply IHY. intros y Hy. apply X. cbn. auto.
    + cbn [cap]. rewrite <- L1, <- L2. clear. induction hs; cbn [flat_map length]; [reflexivity|]. rewrite app_length, map_length, IHhs. reflexivity.
    + intros a Ha. apply HIn in Ha. destruct Ha as (h & t & -> & Hh & Ht'). constructor; auto. apply G2. auto.
    + intros a b Ha Hb. apply HIn in Ha, Hb. destruct Ha as (h & t & -> & Hh & Ht'), Hb as (h' & t' & -> & Hh' & Ht''). constructor; [apply T1; auto|]. apply T2; auto.
    + intros a Ha. apply HIn. pose proof (I1 a Ha) as X. specialize (Hg a Ha). inversion Hg; subst. cbn in X. do 2 eexists. split; [reflexivity|]. split; auto.
      apply I2. change l' with (tl (y :: l')). apply in_map. auto.
Qed.

Lemma grid_extend div P P' : (forall a, In a P -> in_grid div a) -> (forall a b, In a P -> In b P -> touch a b) ->
  NoDup P' -> (forall a, In a P' -> in_grid div a) -> (forall a b, In a P' -> In b P' -> touch a b) -> (length P < length P')%nat ->
  exists b, in_grid div b /\ ~ In b P /\ forall a, In a P -> touch a b.
Proof.
  intros G T N' G' T' L.
  assert (Hd : Forall (fun d => 1 <= d) div).
  { destruct P' as [|a P']; [cbn in L; lia|]. specialize (G' a (or_introl eq_refl)). clear - G'. induction G'; constructor; auto. lia. }
  destruct (box div Hd P G T) as (B & N1 & L1 & G1 & T1 & I1). destruct (box div Hd P' G' T') as (B' & N2 & L2 & _ & _ & I2).
  pose proof (NoDup_incl_length N' I2) as X.
  destruct (existsb (fun b => negb (if in_dec (list_eq_dec Z.eq_dec) b P then true else false)) B) eqn:E.
  - apply existsb_exists in E. destruct E as (b & Hb & E). destruct (in_dec _ b P) as [|Hno]; [discriminate|]. exists b. repeat split; auto.
  - exfalso. assert (incl B P).
    { intros b Hb. destruct (in_dec (list_eq_dec Z.eq_dec) b P) as [|Hno]; auto. exfalso.
      assert (existsb (fun b => negb (if in_dec (list_eq_dec Z.eq_dec) b P then true else false)) B = true); [|congruence].
      apply existsb_exists. exists b. split; auto. destruct (in_dec _ b P); [contradiction|reflexivity]. }
    pose proof (NoDup_incl_length N1 H). lia.
Qed.

(** ** Adding a vertex to an increasing list *)
Lemma insert_facet s w : increasing s -> ~ In w s -> exists s' k, increasing s' /\ length s' = S (length s) /\ (k <= length s)%nat /\ facet k s' = s /\
  forall x, In x s' <-> x = w \/ In x s.
Proof.
  unfold increasing. induction 1 as [|x s Hs IH Hx]; intros Hw.
  - exists [w], 0%nat. repeat split; try reflexivity; try (repeat constructor); cbn in *; intuition.
  - destruct (Nat.lt_trichotomy w x) as [Hlt|[->|Hlt]]; [|exfalso; apply Hw; cbn; auto|].
    + exists (w :: x :: s), 0%nat. split; [|repeat split; try reflexivity; cbn; try lia; intuition].
      constructor; [constructor; auto|]. constructor; auto. apply Forall_forall. intros y Hy. rewrite Forall_forall in Hx. specialize (Hx y Hy). lia.
    + destruct IH as (s' & k & H1 & H2 & H3 & H4 & H5); [intros X; apply Hw; cbn; auto|].
      exists (x :: s'), (S k). split; [|split; [cbn; lia|split; [cbn; lia|split]]].
      * constructor; auto. apply Forall_forall. intros y Hy. apply H5 in Hy. rewrite Forall_forall in Hx. destruct Hy as [->|Hy]; auto.
      * unfold facet in *. cbn. f_equal. exact H4.
      * intros y. cbn. rewrite H5. intuition.
Qed.

Section Cover.
Variables (max_div : Z) (overlap : Q) (dim : nat) (pc : list point) (pts : list (list (list point))) (IN : list (list (list nat))) (n : nat) (Cs : list (list simplex)).
Hypothesis (Hdiv : 1 <= max_div) (Hrect : rectangular dim pc) (Hspread : spread dim pc).
Hypothesis HE : generate_cover (fun x => x) max_div overlap dim pc = Ok (pts, IN, (n, Cs)).

Section Data.
Variables (mins : list Q) (side : Q) (div : list Z).
Hypothesis D : cover_data max_div overlap dim pc mins side div pts IN n Cs.
Let Hnn := div_nonneg _ _ _ _ _ _ (cd_grid _ _ _ _ _ _ _ _ _ _ _ D).

Lemma pos_of v : (v < n)%nat -> exists a, in_grid div a /\ grid_index div a = Z.of_nat v.
Proof. intros Hv. apply grid_index_surj; auto. rewrite (cd_n _ _ _ _ _ _ _ _ _ _ _ D) in Hv. lia. Qed.

Lemma lev_clique d s : In s (level n Cs d) <-> clique n (adjacent div) d s.
Proof.
  destruct d as [|d].
  - cbn [level]. rewrite in_map_iff. split.
    + intros (v & <- & Hv). apply in_seq in Hv. split; [reflexivity|]. split; [repeat constructor|]. split; [intros x [<-|[]]; lia|]. intros a b [<-|[]] [<-|[]]. lia.
    + intros (H1 & _ & H3 & _). destruct s as [|v [|]]; cbn in H1; try lia. exists v. split; auto. apply in_seq. specialize (H3 v (or_introl eq_refl)). lia.
  - destruct (Nat.le_gt_cases (S d) (2 ^ dim)) as [L|L]; [apply (cd_levels _ _ _ _ _ _ _ _ _ _ _ D); lia|]. split.
    + cbn [level]. rewrite nth_overflow; [intros []|]. rewrite (cd_lenC _ _ _ _ _ _ _ _ _ _ _ D). lia.
    + intros H. exfalso. rewrite (cd_n _ _ _ _ _ _ _ _ _ _ _ D) in H. apply clique_count in H; auto. rewrite (go_div _ _ _ _ _ _ (cd_grid _ _ _ _ _ _ _ _ _ _ _ D)) in H. lia.
Qed.

Lemma cover_simplicial : simplicial n Cs.
Proof.
  split; [|split].
  - intros d s Hs. apply lev_clique in Hs. destruct Hs as (H1 & H2 & H3 & _). auto.
  - intros [|d]; [cbn [level]; apply NoDup_map_on; [apply seq_NoDup|intros a b _ _ E; injection E; auto]|].
    destruct (Nat.le_gt_cases (S d) (2 ^ dim)) as [L|L]; [apply (cd_levels _ _ _ _ _ _ _ _ _ _ _ D); lia|].
    cbn [level]. rewrite nth_overflow; [constructor|]. rewrite (cd_lenC _ _ _ _ _ _ _ _ _ _ _ D). lia.
  - intros d s k Hs Hk. apply lev_clique in Hs. apply lev_clique. destruct Hs as (H1 & H2 & H3 & H4).
    assert (Hk' : (k < length s)%nat) by lia. assert (Hin : forall x, In x (facet k s) -> In x s) by (intros x Hx; apply (facet_In k s x H2 Hk') in Hx; tauto).
    split; [rewrite facet_length by auto; lia|]. split; [apply facet_increasing; auto|]. split; [auto|]. intros u v Hu Hv. apply H4; auto.
Qed.

Lemma in0 v q : (v < n)%nat -> In q (nth v (nth 0 IN []) []) -> (q < length pc)%nat.
Proof.
  intros Hv Hq. destruct (pos_of v Hv) as (a & Ha & Ea). destruct (cd_in _ _ _ _ _ _ _ _ _ _ _ D a Ha) as (_ & H & _). rewrite Ea, Nat2Z.id in H. apply H in Hq. tauto.
Qed.

Lemma cover_covering_aux : covering (length pc) n Cs IN.
Proof.
  destruct (C37_aux max_div overlap dim pc Hdiv Hrect Hspread pts IN n Cs HE) as (L1 & L2 & HL).
  assert (Hmeet : forall d k q, (d <= length Cs)%nat -> (k < length (level n Cs d))%nat -> In q (nth k (nth d IN []) []) <-> forall v, In v (nth k (level n Cs d) []) -> In q (nth v (nth 0 IN []) [])).
  { intros d k q Hd Hk. destruct (HL d Hd) as (_ & _ & H). apply (H k Hk). }
  assert (Hout : forall d k, ~ ((d <= length Cs)%nat /\ (k < length (level n Cs d))%nat) -> nth k (nth d IN []) [] = []).
  { intros d k H. destruct (Nat.le_gt_cases d (length Cs)) as [Hd|Hd]; [|rewrite (nth_overflow IN) by lia; destruct k; reflexivity].
    apply nth_overflow. destruct (HL d Hd) as (-> & _). destruct (Nat.le_gt_cases (length (level n Cs d)) k); auto. tauto. }
  constructor.
  - apply cover_simplicial.
  - intros X. pose proof (cd_lenC _ _ _ _ _ _ _ _ _ _ _ D) as Y. rewrite X in Y. cbn in Y. pose proof (Nat.pow_nonzero 2 dim). lia.
  - exact L1.
  - intros d Hd. apply (HL d Hd).
  - intros d k. destruct (Nat.le_gt_cases d (length Cs)) as [Hd|Hd]; [|rewrite Hout by lia; constructor].
    destruct (Nat.lt_ge_cases k (length (level n Cs d))) as [Hk|Hk]; [|rewrite Hout by lia; constructor]. destruct (HL d Hd) as (_ & _ & H). apply (H k Hk).
  - intros d k q Hq. destruct (Nat.le_gt_cases d (length Cs)) as [Hd|Hd]; [|rewrite Hout in Hq by lia; destruct Hq].
    destruct (Nat.lt_ge_cases k (length (level n Cs d))) as [Hk|Hk]; [|rewrite Hout in Hq by lia; destruct Hq].
    assert (Hs : In (nth k (level n Cs d) []) (level n Cs d)) by (apply nth_In; auto). apply lev_clique in Hs. destruct Hs as (S1 & _ & S3 & _).
    destruct (nth k (level n Cs d) []) as [|v s] eqn:Es; [cbn in S1; lia|]. apply (in0 v); [apply S3; cbn; auto|].
    apply (Hmeet d k q Hd Hk). auto. rewrite Es. cbn. auto.
  - exact Hmeet.
Qed.

Lemma positions_of s d : clique n (adjacent div) d s -> exists P, length P = length s /\ NoDup P /\ (forall a, In a P -> in_grid div a /\ In (Z.to_nat (grid_index div a)) s) /\
  (forall a b, In a P -> In b P -> touch a b) /\ forall v, In v s -> exists a, In a P /\ grid_index div a = Z.of_nat v.
Proof.
  intros (_ & H2 & H3 & H4). apply increasing_NoDup in H2.
  assert (HP : exists P, Forall2 (fun v a => in_grid div a /\ grid_index div a = Z.of_nat v) s P).
  { clear - H3 D Hnn. induction s as [|v s IH]; [exists []; constructor|]. destruct IH as (P & HP); [intros; apply H3; cbn; auto|].
    destruct (pos_of v (H3 v (or_introl eq_refl))) as (a & Ha). exists (a :: P). constructor; auto. }
  destruct HP as (P & HP). exists P. split; [symmetry; apply (Forall2_length HP)|].
  assert (HinP : forall a, In a P -> exists v, In v s /\ in_grid div a /\ grid_index div a = Z.of_nat v).
  { clear - HP. induction HP as [|v a s P Hva HP IH]; intros b []; subst.
    - exists v. simpl. tauto.
    - destruct (IH b H) as (w & Hw & ?). exists w. simpl. tauto. }
  split; [|split; [|split]].
  - clear - HP H2. induction HP as [|v a s P [Hg Hi] HP IH]; constructor; inversion H2; subst; auto.
    intros Hin. assert (exists w, In w s /\ grid_index div a = Z.of_nat w) as (w & Hw & E).
    { clear - HP Hin. induction HP as [|w b s P [Hg Hi] HP IH]; [destruct Hin|]. destruct Hin as [->|Hin].
      - exists w. simpl. auto.
      - destruct (IH Hin) as (w' & ? & ?). exists w'. simpl. auto. }
    assert (w = v) by lia. subst. auto.
  - intros a Ha. destruct (HinP a Ha) as (v & Hv & Hg & E). split; auto. rewrite E, Nat2Z.id. auto.
  - intros a b Ha Hb. destruct (HinP a Ha) as (v & Hv1 & Hg1 & E1). destruct (HinP b Hb) as (w & Hw1 & Hg2 & E2).
    destruct (lt_eq_lt_dec v w) as [[Hlt| ->]|Hlt].
    + destruct (H4 v w Hv1 Hw1 Hlt) as (a' & b' & G1 & G2 & G3 & G4 & G5).
      replace a with a' by (apply (grid_index_inj div); auto; lia). replace b with b' by (apply (grid_index_inj div); auto; lia). auto.
    + replace b with a by (apply (grid_index_inj div); auto; lia). apply touch_refl.
    + destruct (H4 w v Hw1 Hv1 Hlt) as (a' & b' & G1 & G2 & G3 & G4 & G5). apply touch_sym.
      replace b with a' by (apply (grid_index_inj div); auto; lia). replace a with b' by (apply (grid_index_inj div); auto; lia). auto.
  - clear - HP. induction HP as [|v a s P Hva HP IH]; intros x []; subst.
    + exists a. split; [cbn; auto|]. tauto.
    + destruct (IH x H) as (b & Hb & ?). exists b. cbn. tauto.
Qed.

Lemma cover_pure_aux : pure_nerve n Cs.
Proof.
  split.
  - intros d Hd. destruct (level n Cs (S d)) as [|s1 rest] eqn:E1; [left; auto|right]. intros t Ht.
    assert (H1 : clique n (adjacent div) (S d) s1) by (apply lev_clique; rewrite E1; cbn; auto). apply lev_clique in Ht.
    destruct (positions_of s1 _ H1) as (P1 & L1 & N1 & G1 & T1 & _). destruct (positions_of t _ Ht) as (P & L & N0 & G0 & T0 & I0).
    destruct (grid_extend div P P1) as (b & Gb & Hno & Tb); auto.
    { intros a Ha. apply G0; auto. }
    { intros a Ha. apply G1; auto. }
    { destruct H1 as [X _]. destruct Ht as [Y _]. lia. }
    set (w := Z.to_nat (grid_index div b)). pose proof (grid_index_bound _ _ Gb) as Bb.
    assert (Hw : ~ In w t). { intros X. destruct (I0 w X) as (a & Ha & Ea). apply Hno. replace b with a; auto. apply (grid_index_inj div); auto; [apply G0; auto|]. unfold w in Ea. lia. }
    destruct Ht as (S1 & S2 & S3 & S4). destruct (insert_facet t w S2 Hw) as (s' & k & A1 & A2 & A3 & A4 & A5).
    exists s', k. split; [|split; [lia|auto]]. apply lev_clique. split; [lia|]. split; auto.
    assert (Hwn : (w < n)%nat) by (rewrite (cd_n _ _ _ _ _ _ _ _ _ _ _ D); unfold w; lia).
    split; [intros v Hv; apply A5 in Hv; destruct Hv as [->|Hv]; auto|].
    intros u v Hu Hv Huv. apply A5 in Hu, Hv. destruct Hu as [->|Hu], Hv as [->|Hv]; [lia| | |apply S4; auto].
    + destruct (I0 v Hv) as (a & Ha & Ea). exists b, a. split; auto. split; [apply G0; auto|]. split; [apply touch_sym; auto|]. split; auto. unfold w. lia.
    + destruct (I0 u Hu) as (a & Ha & Ea). exists a, b. split; [apply G0; auto|]. split; auto. split; [apply Tb; auto|]. split; auto. unfold w. lia.
  - destruct (level n Cs (length Cs)) as [|s l] eqn:E; auto. exfalso. assert (H : In s (level n Cs (length Cs))) by (rewrite E; cbn; auto). apply lev_clique in H.
    rewrite (cd_n _ _ _ _ _ _ _ _ _ _ _ D) in H. apply clique_count in H; auto. rewrite (go_div _ _ _ _ _ _ (cd_grid _ _ _ _ _ _ _ _ _ _ _ D)) in H.
    rewrite (cd_lenC _ _ _ _ _ _ _ _ _ _ _ D) in H. lia.
Qed.

(** ** Hypercubes with a common point are linked *)
Definition toward (a b : list Z) : list Z := zipw (fun x y => x + Z.sgn (y - x)) a b.
Definition apart (a b : list Z) : Z := fold_right Z.add 0 (zipw (fun x y => Z.abs (x - y)) a b).

Lemma apart_nonneg a : forall b, 0 <= apart a b.
Proof. induction a; intros [|y b]; unfold apart in *; cbn; try lia; try (specialize (IHa b); lia). Qed.
Lemma apart_zero a : forall b, length a = length b -> apart a b = 0 -> a = b.
Proof. induction a as [|x a IH]; intros [|y b] L H; cbn in L; try lia; auto. unfold apart in *. cbn in H. pose proof (apart_nonneg a b) as X. unfold apart in X. f_equal; [lia|]. apply IH; lia. Qed.
Lemma toward_len a : forall b, length a = length b -> length (toward a b) = length a.
Proof. induction a as [|x a IH]; intros [|y b] L; cbn in *; try lia. unfold toward in IH. rewrite IH; lia. Qed.
Lemma toward_nth a : forall b d, length a = length b -> nth d (toward a b) 0 = nth d a 0 + Z.sgn (nth d b 0 - nth d a 0).
Proof. induction a as [|x a IH]; intros [|y b] d L; cbn in L; try lia; destruct d; cbn; try lia. apply IH. lia. Qed.
Lemma toward_touch a : forall b, length a = length b -> touch (toward a b) a.
Proof. induction a as [|x a IH]; intros [|y b] L; cbn in *; try lia; constructor; [lia|]. apply IH. lia. Qed.
Lemma toward_apart a : forall b, length a = length b -> apart (toward a b) b <= apart a b /\ (a <> b -> apart (toward a b) b < apart a b).
Proof.
  induction a as [|x a IH]; intros [|y b] L; cbn in L; try lia; [cbn; split; [lia|congruence]|]. destruct (IH b ltac:(lia)) as [H1 H2].
  unfold apart, toward in *. cbn. split; [lia|]. intros Hne. destruct (Z.eq_dec x y) as [->|]; [|lia].
  assert (a <> b) by congruence. specialize (H2 H). lia.
Qed.
Lemma toward_grid a : forall b, in_grid div a -> in_grid div b -> in_grid div (toward a b).
Proof.
  intros b Ha Hb. pose proof (Forall2_length Ha) as La. pose proof (Forall2_length Hb) as Lb.
  apply in_grid_nth; [rewrite toward_len; lia|]. intros d Hd. rewrite toward_nth by lia.
  pose proof (in_grid_nth_inv _ _ Ha d Hd). pose proof (in_grid_nth_inv _ _ Hb d Hd). lia.
Qed.

Lemma toward_cube a b pt : length a = length b -> (0 < side)%Q -> in_cube mins side overlap a pt -> in_cube mins side overlap b pt -> in_cube mins side overlap (toward a b) pt.
Proof.
  intros L Hs [L1 Ha] [L2 Hb]. split; [rewrite toward_len; lia|]. rewrite toward_len by auto. intros d Hd.
  specialize (Ha d Hd). specialize (Hb d ltac:(lia)). cbv zeta in *. rewrite toward_nth by auto. set (x := nth d a 0) in *. set (y := nth d b 0) in *.
  assert (M : forall x y : Z, x <= y -> (side * inject_Z x <= side * inject_Z y)%Q).
  { intros u v H. rewrite Zle_Qle in H. apply Qmult_le_l; auto. }
  destruct (Z_le_gt_dec x y) as [H|H].
  - pose proof (M x (x + Z.sgn (y - x)) ltac:(lia)). pose proof (M (x + Z.sgn (y - x)) y ltac:(lia)). split; qlra.
  - pose proof (M y (x + Z.sgn (y - x)) ltac:(lia)). pose proof (M (x + Z.sgn (y - x)) x ltac:(lia)). split; qlra.
Qed.

Lemma linked_aux k : forall a b q, (apart b a <= Z.of_nat k)%Z -> in_grid div a -> in_grid div b -> (q < length pc)%nat ->
  in_cube mins side overlap a (nth q pc []) -> in_cube mins side overlap b (nth q pc []) ->
  linked IN n Cs q (Z.to_nat (grid_index div a)) (Z.to_nat (grid_index div b)).
Proof.
  induction k as [|k IH]; intros a b q Hk Ga Gb Hq Ca Cb; pose proof (Forall2_length Ga) as La; pose proof (Forall2_length Gb) as Lb.
  - replace b with a; [constructor|]. symmetry. apply apart_zero; [lia|]. pose proof (apart_nonneg b a). lia.
  - destruct (list_eq_dec Z.eq_dec b a) as [->|Hne]; [constructor|].
    pose proof (go_side _ _ _ _ _ _ (cd_grid _ _ _ _ _ _ _ _ _ _ _ D)) as Hs. assert (L : length b = length a) by lia.
    set (b' := toward b a). pose proof (toward_grid b a Gb Ga) as Gb'. pose proof (toward_cube b a _ L Hs Cb Ca) as Cb'. pose proof (toward_touch b a L) as Tb. pose proof (proj2 (toward_apart b a L) Hne) as Ab.
    fold b' in Gb', Cb', Tb, Ab.
    destruct (list_eq_dec Z.eq_dec b' b) as [E|Hne']; [rewrite E in Ab; lia|].
    assert (Hin : forall c, in_grid div c -> in_cube mins side overlap c (nth q pc []) -> In q (ins_of IN 0 (Z.to_nat (grid_index div c)))).
    { intros c Gc Cc. destruct (cd_in _ _ _ _ _ _ _ _ _ _ _ D c Gc) as (_ & H & _). apply H. auto. }
    apply (linked_step IN n Cs q _ (Z.to_nat (grid_index div b'))); auto.
    + apply IH; auto. lia.
    + assert (Hedge : forall c e, in_grid div c -> in_grid div e -> touch c e -> (Z.to_nat (grid_index div c) < Z.to_nat (grid_index div e))%nat -> In [Z.to_nat (grid_index div c); Z.to_nat (grid_index div e)] (level n Cs 1)).
      { intros c e Gc Ge Tce Hlt. pose proof (grid_index_bound _ _ Gc). pose proof (grid_index_bound _ _ Ge). apply lev_clique. split; [reflexivity|]. split; [repeat constructor; auto|].
        rewrite (cd_n _ _ _ _ _ _ _ _ _ _ _ D). split; [intros v [<-|[<-|[]]]; lia|]. intros u v [<-|[<-|[]]] [<-|[<-|[]]] Huv; try lia.
        exists c, e. split; auto. split; auto. split; auto. lia. }
      pose proof (grid_index_bound _ _ Gb). pose proof (grid_index_bound _ _ Gb').
      destruct (Z.lt_trichotomy (grid_index div b') (grid_index div b)) as [Hlt|[Heq|Hlt]].
      * left. apply Hedge; auto. lia.
      * exfalso. apply Hne'. apply (grid_index_inj div); auto.
      * right. apply Hedge; auto; [apply touch_sym; auto|lia].
Qed.

Lemma cover_linked_aux a b q : (a < n)%nat -> (b < n)%nat -> In q (ins_of IN 0 a) -> In q (ins_of IN 0 b) -> linked IN n Cs q a b.
Proof.
  intros Ha Hb Hqa Hqb. destruct (pos_of a Ha) as (x & Gx & Ex). destruct (pos_of b Hb) as (y & Gy & Ey).
  destruct (cd_in _ _ _ _ _ _ _ _ _ _ _ D x Gx) as (_ & H & _). destruct (cd_in _ _ _ _ _ _ _ _ _ _ _ D y Gy) as (_ & H' & _).
  rewrite Ex, Nat2Z.id in H. rewrite Ey, Nat2Z.id in H'. apply H in Hqa. apply H' in Hqb.
  pose proof (linked_aux (Z.to_nat (apart y x)) x y q) as X. rewrite Ex, Ey, !Nat2Z.id in X. pose proof (apart_nonneg y x). apply X; auto; try tauto. lia.
Qed.
End Data.

Lemma cover_covering : covering (length pc) n Cs IN.
Proof. destruct (cover_inv _ _ _ _ _ _ _ _ Hdiv Hrect Hspread HE) as (mins & side & div & D). apply (cover_covering_aux mins side div D). Qed.
Lemma cover_pure : pure_nerve n Cs.
Proof. destruct (cover_inv _ _ _ _ _ _ _ _ Hdiv Hrect Hspread HE) as (mins & side & div & D). apply (cover_pure_aux mins side div D). Qed.
Lemma cover_linked a b q : (a < n)%nat -> (b < n)%nat -> In q (ins_of IN 0 a) -> In q (ins_of IN 0 b) -> linked IN n Cs q a b.
Proof. destruct (cover_inv _ _ _ _ _ _ _ _ Hdiv Hrect Hspread HE) as (mins & side & div & D). apply (cover_linked_aux mins side div D). Qed.

Lemma abs_le (x y o : Q) : (Qabs (x - y) <= o)%Q -> (x - y <= o)%Q /\ (y - x <= o)%Q.
Proof. intros H. apply Qabs_Qle_condition in H. destruct H. split; lra. Qed.

Lemma cover_fine Dist max_r d : (0 < dim)%nat -> thick dim pc -> (0 <= overlap)%Q -> length Dist = length pc ->
  (forall u v e, (u < v < length pc)%nat -> near Dist max_r u v -> (e < dim)%nat -> (Qabs (nth e (nth u pc []) 0 - nth e (nth v pc []) 0) <= overlap)%Q) -> fine Dist max_r IN n d.
Proof.
  intros Hd Ht Ho HL Hn s (S1 & S2 & S3 & S4). rewrite HL in S3.
  destruct (small_ok max_div overlap dim pc pts IN n Cs s Hdiv Hrect Hd Ht HE) as (i & Hi & Hin); [intros ->; cbn in S1; lia|auto| |exists i; split; auto].
  intros u v e Hu Hv He. destruct (Nat.lt_trichotomy u v) as [H|[->|H]].
  - pose proof (Hn u v e ltac:(split; auto) ltac:(apply S4; auto) He) as X. apply (proj1 (abs_le _ _ _ X)).
  - lra.
  - pose proof (Hn v u e ltac:(split; auto) ltac:(apply S4; auto) He) as X. apply (proj2 (abs_le _ _ _ X)).
Qed.
End Cover.
