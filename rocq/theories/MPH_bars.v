(** * Barcodes of kernels, quotients and homology of persistence modules *)
From Verif Require Import Base ListX Lin Gauss_model Gauss_arith Basis_model PH_model IK_model IK_lin IK_loop IK_abs IK_relabs IK_quot IK_mph IK_props MPH_props Spec_PH Spec_IK Spec_Bars Bars.
From Coq Require Import Znumtheory.
Local Open Scope Z_scope.

Lemma mod_cong_0 p x : 0 < p -> (x mod p = 0 <-> cong p x 0).
Proof. intros H. apply mod_cong. auto. Qed.

(** ** From a family to the barcode *)
Section Mod.
Variables (p : Z) (B : list (Z * Z)) (Zr Br : Z -> (nat -> Z) -> Prop) (bars : list (Z * Z)) (g : nat -> nat -> Z) (M : Z).
Hypothesis Hp : prime p.
Hypothesis Hbars : forall x, In x bars -> fst x < snd x <= M.
Hypothesis Hq : forall r, quotient_basis p (Zr r) (Br r) (length bars) g (fun k => living bars r k = true).
Hypothesis Hsub : forall r, IK_mph.subspace p B r (Br r).
Hypothesis Hmon : forall r s v, r <= s -> born_by p B r v -> Br r v -> Br s v.
Hypothesis Hold : forall k, (k < length bars)%nat -> exists c,
  (forall t, c t <> 0 -> (t < length bars)%nat /\ fst (nth t bars (0, 0)) <= fst (nth k bars (0, 0)) /\ snd (nth k bars (0, 0)) < snd (nth t bars (0, 0))) /\
  Br (snd (nth k bars (0, 0))) (fun i => g k i - Zsum (length bars) (fun t => c t * g t i)).
Hypothesis Hsupp : forall k i, (k < length bars)%nat -> (i < length B)%nat -> ~ cong p (g k i) 0 -> fst (nth i B (0, 0)) <= fst (nth k bars (0, 0)).

Lemma born_by_sub r : Spec_Bars.subspace p (born_by p B r).
Proof.
  assert (p_pos : 0 < p) by (destruct Hp; lia).
  intros n c b v Hb Hv i Hi Hr. rewrite Hv. apply mod_cong_0; auto. apply Zsum_cong0. intros k Hk.
  pose proof (Hb k Hk i Hi Hr) as X. apply mod_cong_0 in X; auto. rewrite X. apply cong_eq. ring.
Qed.

Lemma within_sub r : Spec_Bars.subspace p (within p B Br r).
Proof.
  assert (p_pos : 0 < p) by (destruct Hp; lia). destruct (Hsub r) as [H1 H2].
  intros n c b v Hb Hv. split; [apply (born_by_sub r n c b); auto; intros k Hk; apply Hb; auto|].
  apply (H1 (lc n c b)); [|apply H2; intros k Hk; right; apply Hb; auto].
  apply (null_0 p B r p_pos). intros i Hi. unfold lc. specialize (Hv i). apply cong_mod_iff in Hv; auto. rewrite Hv. apply cong_eq. ring.
Qed.

Lemma born_g r k : (k < length bars)%nat -> fst (nth k bars (0, 0)) <= r -> born_by p B r (g k).
Proof.
  assert (p_pos : 0 < p) by (destruct Hp; lia).
  intros Hk Hr i Hi Hb. apply mod_cong_0; auto. destruct (cong_dec p (g k i) 0) as [|Hn]; auto. apply Hsupp in Hn; auto. lia.
Qed.

Lemma born_comb r c v : (forall k, (k < length bars)%nat -> c k <> 0 -> fst (nth k bars (0, 0)) <= r) -> born_by p B r v ->
  born_by p B r (fun i => v i - Zsum (length bars) (fun k => c k * g k i)).
Proof.
  assert (p_pos : 0 < p) by (destruct Hp; lia).
  intros Hc Hv i Hi Hr. apply mod_cong_0; auto. pose proof (Hv i Hi Hr) as X. apply mod_cong_0 in X; auto. rewrite X.
  rewrite (Zsum_cong0 p); [reflexivity|]. intros k Hk. destruct (Z.eq_dec (c k) 0) as [->|Hn]; [apply cong_eq; ring|].
  pose proof (born_g r k Hk (Hc k Hk Hn) i Hi Hr) as Y. apply mod_cong_0 in Y; auto. rewrite Y. apply cong_eq. ring.
Qed.

Lemma living_iff' r k : (k < length bars)%nat -> (living bars r k = true <-> bbirth bars k <= r < bdeath bars k).
Proof. intros Hk. rewrite living_iff. unfold bbirth, bdeath. tauto. Qed.

Lemma module_quot r : quotient_basis p (within p B Zr r) (within p B Br r) (length bars) g (fun k => bbirth bars k <= r < bdeath bars k).
Proof.
  assert (p_pos : 0 < p) by (destruct Hp; lia). destruct (Hq r) as (Q1 & Q2 & Q3). split; [|split].
  + intros k Hk Ha. split; [apply born_g; auto; unfold bbirth in Ha; lia|]. apply Q1; auto. apply living_iff'; auto.
  + intros v [Hb Hv]. destruct (Q2 v Hv) as (c & Hc & Hz). exists (fun k => if Nat.ltb k (length bars) then c k else 0).
    assert (E : forall i, Zsum (length bars) (fun k => (if Nat.ltb k (length bars) then c k else 0) * g k i) = Zsum (length bars) (fun k => c k * g k i)).
    { intros i. apply Zsum_ext. intros k Hk. destruct (Nat.ltb_spec k (length bars)); [reflexivity|lia]. }
    split.
    * intros k Hn. destruct (Nat.ltb_spec k (length bars)) as [Hk|]; auto. apply Hc. rewrite living_iff'; auto.
    * split.
      -- apply born_comb; auto. intros k Hk Hn. destruct (Nat.ltb_spec k (length bars)) as [_|]; [|lia].
         destruct (living bars r k) eqn:El; [apply living_iff in El; lia|]. elim Hn. apply Hc. congruence.
      -- apply (proj1 (Hsub r)) with (2 := Hz). apply (null_0 p B r p_pos). intros i Hi. rewrite E. apply cong_eq. ring.
  + intros c Hc [_ Hz] k Hk. specialize (Q3 (fun k => if Nat.ltb k (length bars) then c k else 0)).
    assert (X : (fun k => if Nat.ltb k (length bars) then c k else 0) k mod p = 0).
    { apply Q3; auto.
      - intros l Hl. destruct (Nat.ltb_spec l (length bars)) as [Hlt|]; auto. apply Hc. rewrite <- living_iff'; auto.
      - apply (proj1 (Hsub r)) with (2 := Hz). apply (null_0 p B r p_pos). intros i Hi.
        rewrite (Zsum_ext (length bars) (fun k => (if Nat.ltb k (length bars) then c k else 0) * g k i) (fun k => c k * g k i)).
        + apply cong_eq. ring.
        + intros l Hl. destruct (Nat.ltb_spec l (length bars)); [reflexivity|lia]. }
    cbn beta in X. destruct (Nat.ltb_spec k (length bars)); [auto|lia].
Qed.

Lemma module_barcode : barcode p (within p B Zr) (within p B Br) M bars.
Proof.
  assert (p_pos : 0 < p) by (destruct Hp; lia).
  apply (elder_barcode p (within p B Zr) (within p B Br) M bars g).
  - intros r _. apply within_sub.
  - intros r s v Hrs [H1 H2]. split; [|apply (Hmon r); auto; lia]. intros i Hi Hs. apply H1; auto. lia.
  - exact Hbars.
  - intros r _. apply module_quot.
  - intros k Hk Hd. destruct (Hold k Hk) as (c & Hc & Hv). exists c. split; auto. split; auto.
    assert (Hne : fst (nth k bars (0, 0)) < snd (nth k bars (0, 0))) by (apply Hbars; apply nth_In; auto).
    apply born_comb.
    + intros t Ht Hn. destruct (Hc t Hn) as (_ & X & _). unfold bdeath. lia.
    + apply born_g; auto. unfold bdeath. lia.
Qed.

(** When each member of the family vanishes at the end of its bar. *)
Lemma module_pb : (forall k, (k < length bars)%nat -> Br (snd (nth k bars (0, 0))) (g k)) -> persistent_basis p (within p B Zr) (within p B Br) M bars g.
Proof.
  intros Hdead. split; [exact Hbars|]. split; [intros r _; apply module_quot|]. intros r k Hr Hk Hd. unfold bdeath in Hd.
  assert (Hne : fst (nth k bars (0, 0)) < snd (nth k bars (0, 0))) by (apply Hbars; apply nth_In; auto).
  split; [apply born_g; auto; lia|]. apply (Hmon (snd (nth k bars (0, 0)))); auto. apply born_g; auto. lia.
Qed.
End Mod.

(** ** Images only grow *)
Lemma im_mono p A B F r s v : 0 < p -> morphism p A B F -> r <= s -> born_by p B r v -> im_at p A B F r v -> im_at p A B F s v.
Proof.
  intros Hp Hm Hrs Hb (x & Hx). exists (Spec_IK.restr A r x). apply (null_0 p B s Hp). intros i Hi.
  apply living_iff in Hi.
  assert (E : cong p (mapply F (Spec_IK.restr A s (Spec_IK.restr A r x)) i) (mapply F (Spec_IK.restr A r x) i)).
  { unfold mapply. apply Zsum_cong. intros j Hj. unfold Spec_IK.restr at 1. destruct (living A s j) eqn:El; [reflexivity|].
    unfold Spec_IK.restr. destruct (living A r j) eqn:Er; [|reflexivity]. apply living_iff in Er.
    destruct (cong_dec p (get F i j) 0) as [Ez|Ez]; [rewrite Ez; apply cong_eq; ring|]. exfalso.
    destruct (Hm i j) as [M1 M2]; [tauto|tauto|intros X; apply Ez; apply mod_cong; auto|].
    assert (living A s j = true); [apply living_iff; lia|congruence]. }
  rewrite E. destruct (living B r i) eqn:Er.
  - apply (null_use p B r Hp _ i Hx Er).
  - assert (Hbi : r < fst (nth i B (0, 0))).
    { destruct (Z_lt_le_dec r (fst (nth i B (0, 0)))); auto. assert (living B r i = true); [apply living_iff; lia|congruence]. }
    pose proof (Hb i ltac:(tauto) Hbi) as Y. apply mod_cong_0 in Y; auto. rewrite Y. unfold mapply. rewrite (Zsum_cong0 p); [reflexivity|].
    intros j Hj. unfold Spec_IK.restr. destruct (living A r j) eqn:Ej; [|apply cong_eq; ring]. apply living_iff in Ej.
    destruct (cong_dec p (get F i j) 0) as [Ez|Ez]; [rewrite Ez; apply cong_eq; ring|]. exfalso.
    destruct (Hm i j) as [M1 M2]; [tauto|tauto|intros X; apply Ez; apply mod_cong; auto|]. lia.
Qed.

Lemma null_mono p B r s v : r <= s -> born_by p B r v -> null_at p B r v -> null_at p B s v.
Proof.
  intros Hrs Hb Hv i Hi. apply living_iff in Hi. destruct (Z_lt_le_dec r (fst (nth i B (0, 0)))) as [Hl|Hl]; [apply Hb; tauto|].
  apply Hv. apply living_iff. lia.
Qed.

Lemma born_span_mono p B bars N r s v : 0 < p ->
  (forall i k, (i < length B)%nat -> (k < length bars)%nat -> get N i k mod p <> 0 -> fst (nth i B (0, 0)) <= fst (nth k bars (0, 0))) ->
  r <= s -> born_by p B r v -> born_span p B bars N r v -> born_span p B bars N s v.
Proof.
  intros Hp HN Hrs Hb (c & Hc & Hv). exists c. split; [intros k Hk; destruct (Hc k Hk); split; auto; lia|].
  apply (null_mono p B r); auto. intros i Hi Hr. apply mod_cong_0; auto. pose proof (Hb i Hi Hr) as Y. apply mod_cong_0 in Y; auto. rewrite Y.
  unfold mapply. rewrite (Zsum_cong0 p); [reflexivity|]. intros j Hj. destruct (Z.eq_dec (c j) 0) as [->|Hn]; [apply cong_eq; ring|].
  destruct (Hc j Hn) as [Hl Hf]. destruct (cong_dec p (get N i j) 0) as [Ez|Ez]; [rewrite Ez; apply cong_eq; ring|]. exfalso.
  assert (fst (nth i B (0, 0)) <= fst (nth j bars (0, 0))); [|lia]. apply HN; auto. intros X. apply Ez. apply mod_cong; auto.
Qed.

Lemma null_sub p B r : 0 < p -> IK_mph.subspace p B r (null_at p B r).
Proof.
  intros Hp. split.
  - intros u v Hn Hu. apply (null_cong p B r Hp) with (2 := Hu). intros i Hi. pose proof (null_use p B r Hp _ i Hn Hi) as X. cbn beta in X.
    destruct X as [q Hq]. exists q. lia.
  - intros N c W HW. apply (null_lc p B r Hp). auto.
Qed.

Lemma born_span_sub p B bars N r : 0 < p -> IK_mph.subspace p B r (born_span p B bars N r).
Proof.
  intros Hp. split.
  - intros u v Hn (c & Hc & Hu). exists c. split; auto. apply (null_0 p B r Hp). intros i Hi.
    pose proof (null_use p B r Hp _ i Hn Hi) as X. pose proof (null_use p B r Hp _ i Hu Hi) as Y. cbn beta in X, Y.
    destruct X as [q Hq], Y as [q' Hq']. exists (q' - q). lia.
  - intros n c W HW.
    destruct (fin_choose (fun _ : nat => 0) n (fun k x => c k = 0 /\ x = (fun _ => 0) \/ (forall j, x j <> 0 -> (j < length bars)%nat /\ fst (nth j bars (0, 0)) <= r) /\
      null_at p B r (fun i => W k i - mapply N x i))) as (x & Hx).
    { intros k Hk. destruct (HW k Hk) as [E|(d & Hd)]; [exists (fun _ => 0); left; auto|exists d; right; exact Hd]. }
    exists (lc n c x). split.
    + intros j Hj. destruct (lt_dec j (length bars)) as [Hl|Hl]; [destruct (Z_le_gt_dec (fst (nth j bars (0, 0))) r); auto|]; exfalso; apply Hj; apply Zsum_0; intros k Hk;
        (destruct (Hx k Hk) as [[_ ->]|[X _]]; [ring|]); (destruct (Z.eq_dec (x k j) 0) as [->|Hn]; [ring|]); destruct (X j Hn); lia.
    + apply (null_cong p B r Hp) with (u := lc n c (fun k i => W k i - mapply N (x k) i)).
      * intros i Hi. apply cong_eq. rewrite mapply_lc. unfold lc. rewrite <- Zsum_sub. apply Zsum_ext. intros; ring.
      * apply (null_lc p B r Hp). intros k Hk. destruct (Hx k Hk) as [[E _]|[_ X]]; auto.
Qed.

(** ** The kernel *)
Lemma kernel_barcode_aux rnd p A B F : ik_input rnd p A B F ->
  forall Im Ker Pre, image_kernel rnd A B F p 0 = Ok (Im, Some Ker, Pre) ->
  forall M, (forall x, In x (b_bars Ker) -> snd x <= M) ->
  barcode p (within p (b_bars A) (ker_at p (b_bars A) (b_bars B) F)) (within p (b_bars A) (null_at p (b_bars A))) M (b_bars Ker).
Proof.
  intros HIn Im Ker Pre E M HM.
  destruct (image_kernel_abs rnd p A B F HIn) as (I & K & Pr & E' & OI & OK & _ & _ & HK & HI & HIb & Hcalm & NI & NK & BI & MK & EK & EI & EN).
  rewrite E' in E. injection E as -> -> ->. pose proof (in_prime _ _ _ _ _ HIn) as Hp. assert (p_pos : 0 < p) by (destruct Hp; lia).
  destruct OK as ((_ & K0 & Kne) & _). pose proof (in_A _ _ _ _ _ HIn) as (_ & A0 & _). rewrite K0 in HK.
  apply (module_barcode p (b_bars A) _ _ (b_bars Ker) (column (b_coords Ker)) M Hp); auto.
  - intros r. apply null_sub. auto.
  - intros r s v Hrs Hb Hv. apply (null_mono p _ r); auto.
  - intros k Hk. exists (fun _ => 0). split; [intros t Ht; lia|]. pose proof (dead_null p (b_bars A) _ _ _ k MK Hk (Z.le_refl _)) as X.
    apply (null_cong p _ _ p_pos) with (2 := X). intros i Hi. rewrite Zsum_0 by (intros; ring). apply cong_eq. ring.
  - intros k i Hk Hi Hn. apply (MK i k Hi Hk). intros X. apply Hn. apply mod_cong; auto.
Qed.

(** ** The quotient *)
Lemma quot_barcode_aux rnd p B M N : quot_input rnd p B M N -> (0 < b_dim N)%nat -> (0 < b_dim M)%nat ->
  exists Q, quotient rnd true M N p = Ok Q /\
  forall R, (forall x, In x (b_bars Q) -> snd x <= R) ->
  barcode p (within p (b_bars B) (born_span p (b_bars B) (b_bars M) (b_coords M)))
    (within p (b_bars B) (born_span p (b_bars B) (b_bars N) (b_coords N))) R (b_bars Q).
Proof.
  intros HQ HN HM. destruct (quotient_ok rnd p B M N HQ HN HM) as (Q & Pre & E & OQ & _ & _ & _ & _ & H1 & H2 & H3 & H4 & _).
  exists Q. split; auto. intros R HR. pose proof HQ as [Hp HB _ _ (HNb & _) _ _ Hborn _]. assert (p_pos : 0 < p) by (destruct Hp; lia).
  destruct OQ as ((_ & Q0 & Qne) & _). destruct HB as (_ & B0 & _). destruct HNb as (_ & N0 & _). rewrite Q0 in H1, H3, H4. rewrite B0 in H4, Hborn. rewrite N0 in Hborn.
  apply (module_barcode p (b_bars B) _ _ (b_bars Q) (fun k => mapply (b_coords M) (column Pre k)) R Hp); auto.
  - intros r. apply born_span_sub. auto.
  - intros r s v Hrs Hb Hv. apply (born_span_mono p _ _ _ r); auto.
Qed.

(** ** Homology *)
Lemma mph_barcode_aux rnd p D Bs : chain_input rnd p D Bs ->
  forall Hom Im Pre, module_persistence_homology rnd D Bs p = Ok (Hom, Im, Pre) ->
  forall d, (d < length Bs)%nat -> ~ over_zero Bs d ->
  forall M, (forall x, In x (b_bars (nth d Hom empty_basis)) -> snd x <= M) ->
  (0 < b_dim (nth d Bs empty_basis))%nat ->
  barcode p (within p (b_bars (nth d Bs empty_basis)) (cycles_at p D Bs d)) (within p (b_bars (nth d Bs empty_basis)) (bounds_at p D Bs d)) M
    (b_bars (nth d Hom empty_basis)).
Proof.
  intros HC Hom Im Pre E d Hd Ho M HM Hpos. destruct (mph_cases rnd p D Bs HC) as [(H & J & P & E' & _ & _ & _ & HH & _)|[E' X]]; rewrite E' in E; [|discriminate].
  injection E as -> -> ->. destruct (HH d Hd) as [G _]. destruct (G Ho) as (G1 & g & G2 & G3 & G4).
  pose proof (ci_prime _ _ _ _ HC) as Hp. assert (p_pos : 0 < p) by (destruct Hp; lia).
  destruct (G1 Hpos) as ((_ & Q0 & Qne) & _). rewrite Q0 in G2, G3, G4.
  destruct (ci_base _ _ _ _ HC d Hd) as [_ [[_ (_ & B0 & _)]|[X _]]]; [|lia]. rewrite B0 in G4.
  apply (module_barcode p _ _ _ _ g M Hp); auto.
  - intros r. apply G2.
  - intros r. apply (bnd_sub rnd p D Bs HC).
  - intros r s v Hrs Hb Hv. apply (im_mono p _ _ _ r); auto.
    destruct (le_lt_dec (length Bs) (S d)) as [Hl|Hl].
    + rewrite (@nth_overflow _ Bs (S d)) by lia. intros i j _ Hj. cbn in Hj. lia.
    + destruct (ci_base _ _ _ _ HC (S d) Hl) as [_ [[Hp1 _]|[_ X]]].
      * apply (ci_mor _ _ _ _ HC d Hl Hp1 Hpos).
      * rewrite X. intros i j _ Hj. cbn in Hj. lia.
Qed.

(** The columns returned for a degree, when they are exact: in degree 0 of a list which is not sorted beforehand, and below a degree
    without bars. *)
Lemma mph_pb_aux rnd p D Bs : chain_input rnd p D Bs ->
  forall Hom Im Pre, module_persistence_homology rnd D Bs p = Ok (Hom, Im, Pre) ->
  forall d, (d < length Bs)%nat -> ~ over_zero Bs d ->
  forall M, (forall x, In x (b_bars (nth d Hom empty_basis)) -> snd x <= M) ->
  (0 < b_dim (nth d Bs empty_basis))%nat ->
  (d = 0%nat /\ b_sorted (nth 0 Bs empty_basis) = false) \/ b_bars (nth (S d) Bs empty_basis) = [] ->
  over (nth d Hom empty_basis) (nth d Bs empty_basis) /\
  persistent_basis p (within p (b_bars (nth d Bs empty_basis)) (cycles_at p D Bs d)) (within p (b_bars (nth d Bs empty_basis)) (bounds_at p D Bs d)) M
    (b_bars (nth d Hom empty_basis)) (column (b_coords (nth d Hom empty_basis))).
Proof.
  intros HC Hom Im Pre E d Hd Ho M HM Hpos Hx. destruct (mph_good rnd p D Bs HC) as [(H & J & P & E' & _ & _ & _ & HH & _)|[E' X]]; rewrite E' in E; [|discriminate].
  injection E as -> -> ->. destruct (HH d Hd) as (_ & _ & G). destruct (G Ho Hpos Hx) as (G1 & G2 & G3 & G4). split; [exact G1|].
  pose proof (ci_prime _ _ _ _ HC) as Hp. assert (p_pos : 0 < p) by (destruct Hp; lia).
  destruct G1 as ((_ & Q0 & Qne) & _). rewrite Q0 in G2, G3, G4.
  destruct (ci_base _ _ _ _ HC d Hd) as [_ [[_ (_ & B0 & _)]|[X _]]]; [|lia]. rewrite B0 in G4.
  apply (module_pb p _ _ _ _ _ M Hp); auto.
  - intros r. apply (bnd_sub rnd p D Bs HC).
  - intros r s v Hrs Hb Hv. apply (im_mono p _ _ _ r); auto.
    destruct (le_lt_dec (length Bs) (S d)) as [Hl|Hl].
    + rewrite (@nth_overflow _ Bs (S d)) by lia. intros i j _ Hj. cbn in Hj. lia.
    + destruct (ci_base _ _ _ _ HC (S d) Hl) as [_ [[Hp1 _]|[_ X]]].
      * apply (ci_mor _ _ _ _ HC d Hl Hp1 Hpos).
      * rewrite X. intros i j _ Hj. cbn in Hj. lia.
  - intros k Hk. exists (fun _ => 0). split; [intros u Hu; lia|]. pose proof (bnd_sub rnd p D Bs HC d (snd (nth k (b_bars (nth d Hom empty_basis)) (0, 0)))) as [HS _].
    refine (HS _ _ _ (G3 k Hk)). apply (null_0 p _ _ p_pos). intros i Hi. rewrite Zsum_0 by (intros; ring). apply cong_eq. ring.
Qed.
