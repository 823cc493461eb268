(** * Matching bars by counting them *)
From Coq Require Import Permutation.
From Verif Require Import Base ListX Spec_PH Spec_Stable.
Local Open Scope Z_scope.

(** Number of pairs with the key [k] and a value above [d]. *)
Definition above (k d : Z) (l : list (Z * Z)) : nat := length (filter (fun x => (fst x =? k) && (d <? snd x)) l).

Lemma above_perm k d l l' : Permutation l l' -> above k d l = above k d l'.
Proof.
  unfold above. induction 1 as [|x l l' H IH|x y l|l l' l'' H1 IH1 H2 IH2]; cbn.
  - reflexivity.
  - destruct ((fst x =? k) && (d <? snd x)); cbn; lia.
  - destruct ((fst x =? k) && (d <? snd x)), ((fst y =? k) && (d <? snd y)); reflexivity.
  - lia.
Qed.
Lemma above_cons k d x l : above k d (x :: l) = ((if ((fst x =? k) && (d <? snd x))%Z then 1 else 0) + above k d l)%nat.
Proof. unfold above. cbn. destruct ((fst x =? k) && (d <? snd x)); reflexivity. Qed.
Lemma above_none k d l : (forall x, In x l -> fst x = k -> snd x <= d) -> above k d l = 0%nat.
Proof.
  intros H. unfold above. replace (filter _ l) with (@nil (Z * Z)); [reflexivity|]. symmetry. induction l as [|x l IH]; [reflexivity|]. cbn.
  replace ((fst x =? k) && (d <? snd x)) with false; [apply IH; intros y Hy; apply H; right; exact Hy|]. symmetry. destruct (Z.eqb_spec (fst x) k) as [E|]; [|reflexivity]. apply Z.ltb_ge, H; [left; reflexivity|exact E].
Qed.
Lemma above_some k d l x : In x l -> fst x = k -> d < snd x -> (0 < above k d l)%nat.
Proof.
  intros H1 H2 H3. unfold above. assert (I : In x (filter (fun x => (fst x =? k) && (d <? snd x)) l)) by (apply filter_In; split; [exact H1|]; apply andb_true_iff; split; [apply Z.eqb_eq; exact H2|apply Z.ltb_lt; exact H3]).
  destruct (filter _ l); [destruct I|cbn; lia].
Qed.
Lemma above_get k d l : (0 < above k d l)%nat -> exists x, In x l /\ fst x = k /\ d < snd x.
Proof.
  unfold above. destruct (filter _ l) as [|x m] eqn:E; cbn; [lia|]. intros _. exists x. assert (I : In x (x :: m)) by (left; reflexivity). rewrite <- E in I. apply filter_In in I. destruct I as [I J].
  apply andb_true_iff in J. destruct J as [J1 J2]. split; [exact I|]. split; [apply Z.eqb_eq; exact J1|apply Z.ltb_lt; exact J2].
Qed.

(** The pair with the largest value among those with a key. *)
Lemma largest k (l : list (Z * Z)) : (exists x, In x l /\ fst x = k) -> exists x, In x l /\ fst x = k /\ forall y, In y l -> fst y = k -> snd y <= snd x.
Proof.
  induction l as [|a l IH]; intros (x & Hx & E); [destruct Hx|].
  destruct (Z.eq_dec (fst a) k) as [Ea|Na].
  - destruct (in_dec Z.eq_dec k (map fst l)) as [I|N].
    + apply in_map_iff in I. destruct I as (z & Ez & Hz). destruct (IH (ex_intro _ z (conj Hz Ez))) as (m & Hm & Em & Lm).
      destruct (Z_le_gt_dec (snd m) (snd a)) as [L|G].
      * exists a. split; [left; reflexivity|]. split; [exact Ea|]. intros y [<-|Hy] Ey; [lia|]. specialize (Lm y Hy Ey). lia.
      * exists m. split; [right; exact Hm|]. split; [exact Em|]. intros y [<-|Hy] Ey; [lia|auto].
    + exists a. split; [left; reflexivity|]. split; [exact Ea|]. intros y [<-|Hy] Ey; [lia|]. exfalso. apply N. apply in_map_iff. exists y. auto.
  - destruct Hx as [->|Hx]; [contradiction|]. destruct (IH (ex_intro _ x (conj Hx E))) as (m & Hm & Em & Lm). exists m. split; [right; exact Hm|]. split; [exact Em|]. intros y [<-|Hy] Ey; [contradiction|auto].
Qed.

Lemma in_perm {A} (x : A) l : In x l -> exists m, Permutation l (x :: m).
Proof. intros H. destruct (in_split x l H) as (b & c & ->). exists (b ++ c). apply Permutation_sym, Permutation_middle. Qed.

(** Matching within each key. *)
Lemma keyed (D : Z) (low : Z -> Z) : 0 <= D -> forall n A C, length A = n -> (forall x, In x C -> low (fst x) < snd x) ->
  (forall k d, (above k d C <= above k d A)%nat) -> (forall k d, low k <= d -> (above k (d + D) A <= above k d C)%nat) ->
  exists l u, Permutation A (map fst l ++ u) /\ Permutation C (map snd l) /\ (forall x y, In (x, y) l -> fst x = fst y /\ snd y <= snd x <= snd y + D) /\ (forall x, In x u -> snd x <= low (fst x) + D).
Proof.
  intros HD n. induction n as [|n IH]; intros A C HL HC H1 H2.
  - destruct A; [|discriminate]. exists [], []. destruct C as [|c C].
    + cbn. repeat split; auto; contradiction.
    + exfalso. pose proof (above_some (fst c) (low (fst c)) (c :: C) c (or_introl eq_refl) eq_refl (HC c (or_introl eq_refl))). specialize (H1 (fst c) (low (fst c))). pose proof (above_none (fst c) (low (fst c)) [] ltac:(intros ? [])). lia.
  - destruct A as [|a0 A0]; [discriminate|]. destruct (largest (fst a0) (a0 :: A0)) as (a & Ha & Ka & La); [exists a0; split; [left; reflexivity|reflexivity]|].
    set (k := fst a0) in *. destruct (in_perm a _ Ha) as (A & PA). assert (LA : length A = n) by (apply Permutation_length in PA; cbn in PA, HL; lia).
    assert (QA : forall j d, above j d (a0 :: A0) = ((if ((k =? j) && (d <? snd a))%Z then 1 else 0) + above j d A)%nat) by (intros j d; rewrite (above_perm _ _ _ _ PA), above_cons, Ka; reflexivity).
    assert (TA : forall d, snd a <= d -> above k d (a0 :: A0) = 0%nat) by (intros d Hd; apply above_none; intros x Hx Ex; specialize (La x Hx Ex); lia).
    destruct (in_dec Z.eq_dec k (map fst C)) as [I|N].
    + apply in_map_iff in I. destruct I as (c0 & Ec0 & Hc0). destruct (largest k C (ex_intro _ c0 (conj Hc0 Ec0))) as (c & Hc & Kc & Lc). destruct (in_perm c _ Hc) as (C' & PC).
      assert (QC : forall j d, above j d C = ((if ((k =? j) && (d <? snd c))%Z then 1 else 0) + above j d C')%nat) by (intros j d; rewrite (above_perm _ _ _ _ PC), above_cons, Kc; reflexivity).
      assert (TC : forall d, snd c <= d -> above k d C = 0%nat) by (intros d Hd; apply above_none; intros x Hx Ex; specialize (Lc x Hx Ex); lia).
      assert (lowc : low k < snd c) by (rewrite <- Kc; apply HC; exact Hc).
      assert (R1 : snd c <= snd a). { destruct (Z_le_gt_dec (snd c) (snd a)); [assumption|]. exfalso. specialize (H1 k (snd a)). rewrite (TA (snd a)) in H1 by lia. pose proof (above_some k (snd a) C c Hc Kc ltac:(lia)). lia. }
      assert (R2 : snd a <= snd c + D). { destruct (Z_le_gt_dec (snd a) (snd c + D)); [assumption|]. exfalso. specialize (H2 k (snd c) ltac:(lia)). rewrite (TC (snd c)) in H2 by lia. pose proof (above_some k (snd c + D) (a0 :: A0) a Ha Ka ltac:(lia)). lia. }
      destruct (IH A C' LA) as (l & u & P1 & P2 & P3 & P4).
      * intros x Hx. apply HC. apply (Permutation_in _ (Permutation_sym PC)). right. exact Hx.
      * intros j d. specialize (H1 j d). rewrite QA, QC in H1. destruct (Z.eqb_spec k j) as [<-|]; cbn [andb] in H1; [|lia].
        destruct (Z.ltb_spec d (snd c)); destruct (Z.ltb_spec d (snd a)); try lia. pose proof (TC d ltac:(lia)) as T. rewrite QC, Z.eqb_refl in T. lia.
      * intros j d Hd. specialize (H2 j d Hd). rewrite QA, QC in H2. destruct (Z.eqb_spec k j) as [<-|]; cbn [andb] in H2; [|lia].
        destruct (Z.ltb_spec d (snd c)); destruct (Z.ltb_spec (d + D) (snd a)); try lia. pose proof (TA (d + D) ltac:(lia)) as T. rewrite QA, Z.eqb_refl in T. lia.
      * exists ((a, c) :: l), u. split; [cbn; rewrite PA; apply perm_skip; exact P1|]. split; [cbn; rewrite PC; apply perm_skip; exact P2|]. split; [|exact P4].
        intros x y [E|Hxy]; [injection E as <- <-; split; [congruence|lia]|apply P3; exact Hxy].
    + assert (Z0 : forall d, above k d C = 0%nat) by (intros d; apply above_none; intros x Hx Ex; exfalso; apply N, in_map_iff; exists x; auto).
      destruct (IH A C LA HC) as (l & u & P1 & P2 & P3 & P4).
      * intros j d. specialize (H1 j d). rewrite QA in H1. destruct (Z.eqb_spec k j) as [<-|]; cbn [andb] in H1; [rewrite Z0; lia|lia].
      * intros j d Hd. specialize (H2 j d Hd). rewrite QA in H2. destruct ((k =? j) && (d + D <? snd a)); lia.
      * exists l, (a :: u). split; [rewrite PA, <- Permutation_middle; apply perm_skip; exact P1|]. split; [exact P2|]. split; [exact P3|]. intros x [<-|Hx]; [|apply P4; exact Hx].
        rewrite Ka. destruct (Z_le_gt_dec (snd a) (low k + D)); [assumption|]. exfalso. specialize (H2 k (low k) ltac:(lia)). rewrite Z0 in H2. pose proof (above_some k (low k + D) (a0 :: A0) a Ha Ka ltac:(lia)). lia.
Qed.

(** ** Matchings can be found by trying *)
Lemma perm_cons_split {A} (x : A) l m : Permutation (x :: l) m -> exists m1 m2, m = m1 ++ x :: m2 /\ Permutation l (m1 ++ m2).
Proof.
  intros H. assert (I : In x m) by (apply (Permutation_in _ H); left; reflexivity). destruct (in_split x m I) as (m1 & m2 & ->). exists m1, m2. split; [reflexivity|]. apply (Permutation_cons_inv (a := x)). rewrite H. symmetry. apply Permutation_middle.
Qed.

Lemma map_split {A B} (f : A -> B) l m1 b m2 : map f l = m1 ++ b :: m2 -> exists l1 a l2, l = l1 ++ a :: l2 /\ map f l1 = m1 /\ f a = b /\ map f l2 = m2.
Proof.
  revert m1. induction l as [|x l IH]; intros m1 E; [destruct m1; discriminate|]. destruct m1 as [|y m1].
  - injection E as E1 E2. exists [], x, l. auto.
  - injection E as E1 E2. destruct (IH m1 E2) as (l1 & a & l2 & -> & H1 & H2 & H3). exists (x :: l1), a, l2. cbn. rewrite E1, H1. auto.
Qed.

Definition ends_near (e : Z) (x y : Z * Z) : Prop := Z.abs (fst x - fst y) <= e /\ Z.abs (snd x - snd y) <= e.
Lemma ends_near_dec e x y : {ends_near e x y} + {~ ends_near e x y}.
Proof. unfold ends_near. destruct (Z_le_dec (Z.abs (fst x - fst y)) e); [|right; tauto]. destruct (Z_le_dec (Z.abs (snd x - snd y)) e); [left; tauto|right; tauto]. Qed.

Lemma matched_cons e x bars bars' : matched_bars e (x :: bars) bars' <-> (snd x - fst x <= 2 * e /\ matched_bars e bars bars') \/ exists c1 y c2, bars' = c1 ++ y :: c2 /\ ends_near e x y /\ matched_bars e bars (c1 ++ c2).
Proof.
  split.
  - intros (l & u & u' & P1 & P2 & H1 & H2). destruct (perm_cons_split _ _ _ P1) as (m1 & m2 & E & Q).
    destruct (app_eq_app _ _ _ _ E) as (k & [[K1 K2]|[K1 K2]]).
    + destruct k as [|z k].
      * left. cbn in K2. rewrite app_nil_r in K1. split; [apply H2; left; rewrite <- K2; left; reflexivity|]. exists l, m2, u'. rewrite K1. split; [exact Q|]. split; [exact P2|]. split; [exact H1|]. intros y [Hy|Hy]; apply H2; [left; rewrite <- K2; right; exact Hy|right; exact Hy].
      * right. injection K2 as <- K2. destruct (map_split fst l m1 x k K1) as (l1 & [a y] & l2 & -> & M1 & M2 & M3). cbn in M2. subst a.
        rewrite map_app in P2. cbn in P2. rewrite <- app_assoc in P2. cbn in P2.
        destruct (perm_cons_split y (map snd l1 ++ map snd l2 ++ u') bars') as (c1 & c2 & -> & Q2); [rewrite P2; apply Permutation_middle|].
        exists c1, y, c2. split; [reflexivity|]. split; [apply (H1 x y); apply in_or_app; right; left; reflexivity|]. exists (l1 ++ l2), u, u'. rewrite !map_app. rewrite M1, M3. split; [rewrite Q, K2; rewrite <- app_assoc; reflexivity|].
        split; [rewrite <- Q2, <- app_assoc; reflexivity|]. split; [|exact H2]. intros a b Hab. apply H1. apply in_app_or in Hab. apply in_or_app. destruct Hab; [left|right; right]; assumption.
    + left. assert (Hx : In x u) by (rewrite K2; apply in_or_app; right; left; reflexivity). split; [apply H2; left; exact Hx|]. exists l, (k ++ m2), u'. split; [rewrite Q, K1, <- app_assoc; reflexivity|]. split; [exact P2|]. split; [exact H1|].
      intros y [Hy|Hy]; apply H2; [left; rewrite K2; apply in_app_or in Hy; apply in_or_app; destruct Hy; [left|right; right]; assumption|right; exact Hy].
  - intros [(S & l & u & u' & P1 & P2 & H1 & H2)|(c1 & y & c2 & -> & N & l & u & u' & P1 & P2 & H1 & H2)].
    + exists l, (x :: u), u'. split; [rewrite <- Permutation_middle; apply perm_skip; exact P1|]. split; [exact P2|]. split; [exact H1|]. intros z [[<-|Hz]|Hz]; [exact S|apply H2; left; exact Hz|apply H2; right; exact Hz].
    + exists ((x, y) :: l), u, u'. cbn. split; [apply perm_skip; exact P1|]. split; [rewrite <- Permutation_middle; apply perm_skip; exact P2|]. split; [|exact H2]. intros a b [E|Hab]; [injection E as <- <-; exact N|apply H1; exact Hab].
Qed.

Lemma split_dec {A} (P : list A -> A -> list A -> Prop) : (forall a x b, {P a x b} + {~ P a x b}) -> forall l, {exists a x b, l = a ++ x :: b /\ P a x b} + {~ exists a x b, l = a ++ x :: b /\ P a x b}.
Proof.
  intros D l. revert P D. induction l as [|y l IH]; intros P D.
  - right. intros (a & x & b & E & _). destruct a; discriminate.
  - destruct (D [] y l) as [Y|N]; [left; exists [], y, l; auto|].
    destruct (IH (fun a x b => P (y :: a) x b) (fun a x b => D (y :: a) x b)) as [Y|N'].
    + left. destruct Y as (a & x & b & -> & H). exists (y :: a), x, b. auto.
    + right. intros (a & x & b & E & H). destruct a as [|z a]; [injection E as <- <-; exact (N H)|]. injection E as <- ->. apply N'. exists a, x, b. auto.
Qed.

Lemma matched_dec e bars : forall bars', {matched_bars e bars bars'} + {~ matched_bars e bars bars'}.
Proof.
  induction bars as [|x bars IH]; intros bars'.
  - destruct (Forall_dec (fun y : Z * Z => snd y - fst y <= 2 * e) (fun y => Z_le_dec _ _) bars') as [F|N]; rewrite Forall_forall in *.
    + left. exists [], [], bars'. cbn. repeat split; auto; [contradiction|contradiction|]. intros y [[]|Hy]. apply F. exact Hy.
    + right. intros (l & u & u' & P1 & P2 & _ & H2). apply Permutation_nil in P1. apply app_eq_nil in P1. destruct P1 as [E _]. destruct l; [|discriminate]. cbn in P2. apply N. intros y Hy. apply H2. right. apply (Permutation_in _ P2). exact Hy.
  - destruct (Z_le_dec (snd x - fst x) (2 * e)) as [L|NL].
    + destruct (IH bars') as [Y|N].
      * left. apply matched_cons. left. auto.
      * destruct (split_dec (fun c1 y c2 => ends_near e x y /\ matched_bars e bars (c1 ++ c2))) with (l := bars') as [Y|N'].
        { intros a y b. destruct (ends_near_dec e x y); [|right; tauto]. destruct (IH (a ++ b)); [left; tauto|right; tauto]. }
        { left. apply matched_cons. right. exact Y. }
        { right. intros H. apply matched_cons in H. tauto. }
    + destruct (split_dec (fun c1 y c2 => ends_near e x y /\ matched_bars e bars (c1 ++ c2))) with (l := bars') as [Y|N'].
      { intros a y b. destruct (ends_near_dec e x y); [|right; tauto]. destruct (IH (a ++ b)); [left; tauto|right; tauto]. }
      { left. apply matched_cons. right. exact Y. }
      { right. intros H. apply matched_cons in H. tauto. }
Qed.
