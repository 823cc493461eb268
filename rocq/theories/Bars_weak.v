(** * Families of which a member, when its bar ends, becomes a combination of older members which live on *)
From Verif Require Import Base ListX SortX Lin Gauss_model Gauss_arith Basis_model PH_model IK_model IK_lin IK_loop IK_abs IK_relabs IK_quot IK_mph IK_props MPH_props Spec_PH Spec_IK Spec_Bars Bars MPH_bars.
From Coq Require Import Znumtheory Permutation.
Local Open Scope Z_scope.

(** As [persistent_basis], but a member which is dead need not be zero. *)
Definition weak_basis {X : Type} (p : Z) (Zs Bs : Z -> (X -> Z) -> Prop) (M : Z) (bars : list (Z * Z)) (g : nat -> X -> Z) : Prop :=
  (forall x, In x bars -> fst x < snd x <= M) /\
  (forall r, r < M -> quotient_basis p (Zs r) (Bs r) (length bars) g (fun k => bbirth bars k <= r < bdeath bars k)) /\
  (forall k, (k < length bars)%nat -> bdeath bars k < M -> exists c,
     (forall t, c t <> 0 -> (t < length bars)%nat /\ bbirth bars t <= bbirth bars k /\ bdeath bars k < bdeath bars t) /\
     Bs (bdeath bars k) (fun i => g k i - Zsum (length bars) (fun t => c t * g t i))).

Lemma pb_weak {X} p (Zs Bs : Z -> (X -> Z) -> Prop) M bars g : prime p -> (forall r, r < M -> Spec_Bars.subspace p (Bs r)) -> persistent_basis p Zs Bs M bars g -> weak_basis p Zs Bs M bars g.
Proof.
  intros Hp HB (P1 & P2 & P3). split; [exact P1|]. split; [exact P2|]. intros k Hk Hd. exists (fun _ => 0). split; [intros t Ht; lia|].
  apply (HB _ Hd 1%nat (fun _ => 1) (fun _ => g k)); [intros _ _; apply P3; auto; lia|]. intros i. f_equal. rewrite Zsum_0 by (intros; ring). cbn [Zsum]. ring.
Qed.

(** Reading a family through a linear map. *)
Lemma wb_map {X Y} p (Z1 B1 : Z -> (X -> Z) -> Prop) (Z2 B2 : Z -> (Y -> Z) -> Prop) (f : (X -> Z) -> Y -> Z) M bars g : prime p ->
  (forall r, r < M -> Spec_Bars.subspace p (Z1 r)) -> (forall r, r < M -> Spec_Bars.subspace p (B2 r)) ->
  (forall n (c : nat -> Z) b i, cong p (f (fun x => Zsum n (fun k => c k * b k x)) i) (Zsum n (fun k => c k * f (b k) i))) ->
  (forall u v, (forall x, cong p (u x) (v x)) -> forall i, cong p (f u i) (f v i)) ->
  (forall r v, r < M -> Z1 r v -> Z2 r (f v)) ->
  (forall r v, r < M -> B1 r v -> B2 r (f v)) ->
  (forall r v, r < M -> Z1 r v -> B2 r (f v) -> B1 r v) ->
  (forall r w, r < M -> Z2 r w -> exists v, Z1 r v /\ B2 r (fun i => w i - f v i)) ->
  weak_basis p Z1 B1 M bars g -> weak_basis p Z2 B2 M bars (fun k => f (g k)).
Proof.
  intros Hp SZ SB Hlin Hext HZ HB HR HS (Hb & Hq & Hdead). set (n := length bars) in *.
  assert (Emod : forall a b, cong p a b -> a mod p = b mod p) by (intros a b Hab; apply cong_mod_iff; [destruct Hp; lia|exact Hab]).
  assert (E0 : forall v c i, cong p (f (fun x => v x - Zsum n (fun k => c k * g k x)) i) (f v i - Zsum n (fun k => c k * f (g k) i))).
  { intros v c i. set (u := fun x => Zsum n (fun k => c k * g k x)).
    set (a := fun k : nat => if Nat.eqb k 0 then 1 else -1). set (b := fun k : nat => if Nat.eqb k 0 then v else u).
    transitivity (f (fun x => Zsum 2 (fun k => a k * b k x)) i); [apply Hext; intros x; apply cong_eq; unfold a, b, u; cbn [Zsum Nat.eqb]; ring|].
    rewrite (Hlin 2%nat a b i). unfold a, b. cbn [Zsum Nat.eqb]. unfold u. rewrite (Hlin n c g i). apply cong_eq. ring. }
  split; auto. split.
  - intros r Hr. destruct (Hq r Hr) as (G1 & G2 & G3). split; [|split].
    + intros k Hk Ha. apply HZ; auto.
    + intros w Hw. destruct (HS r w Hr Hw) as (v & Hv & Hwv). destruct (G2 v Hv) as (c & Hc0 & Hc). exists c. split; [auto|].
      apply (HB r _ Hr) in Hc.
      apply (SB r Hr 2%nat (fun _ => 1) (fun k => if Nat.eqb k 0 then (fun i => w i - f v i) else f (fun i => v i - Zsum n (fun k => c k * g k i)))).
      * intros k _. destruct (Nat.eqb k 0); auto.
      * intros i. apply Emod. cbn [Zsum Nat.eqb]. rewrite E0. fold n. apply cong_eq. ring.
    + intros c Hc Hz. apply G3; auto. apply HR; auto.
      * apply (sub_lc p); [apply SZ; auto|]. intros k Hk. destruct (Z_le_gt_dec (bbirth bars k) r); [destruct (Z_lt_le_dec r (bdeath bars k))|].
        -- right. apply G1; auto.
        -- left. apply Hc. lia.
        -- left. apply Hc. lia.
      * apply (SB r Hr 1%nat (fun _ => 1) (fun _ i => Zsum n (fun k => c k * f (g k) i))); auto.
        intros i. apply Emod. fold n. rewrite (Hlin n c g). cbn [Zsum]. apply cong_eq. ring.
  - intros k Hk Hd. destruct (Hdead k Hk Hd) as (c & Hc & Hz). exists c. split; [exact Hc|]. apply (HB _ _ Hd) in Hz.
    apply (SB _ Hd 1%nat (fun _ => 1) (fun _ => f (fun i => g k i - Zsum n (fun t => c t * g t i)))); [auto|].
    intros i. apply Emod. cbn [Zsum]. rewrite E0. fold n. apply cong_eq. ring.
Qed.

(** Replacing members by members which are equal in the quotient from a radius on before which there are no cycles. *)
Lemma wb_shift {X} p (Zs Bs : Z -> (X -> Z) -> Prop) M bars g g' b0 : prime p -> (forall r, r < M -> Spec_Bars.subspace p (Bs r)) -> (forall r, r < M -> Spec_Bars.subspace p (Zs r)) ->
  (forall r v, r < M -> Bs r v -> Zs r v) ->
  (forall r v, r < M -> r < b0 -> Zs r v -> Bs r v) ->
  (forall r k, b0 <= r < M -> (k < length bars)%nat -> bbirth bars k <= r -> Bs r (fun i => g' k i - g k i)) ->
  weak_basis p Zs Bs M bars g -> weak_basis p Zs Bs M bars g'.
Proof.
  intros Hp SB SZ BZ Hlow Hd (P1 & P2 & P3). set (n := length bars) in *.
  assert (Hb0 : forall k, (k < n)%nat -> b0 <= bbirth bars k).
  { intros k Hk. destruct (Z_lt_le_dec (bbirth bars k) b0) as [L|]; [|lia]. exfalso.
    assert (Hx := P1 _ (nth_In _ (0, 0) Hk)). unfold bbirth in *. set (r := fst (nth k bars (0, 0))) in *. destruct (P2 r ltac:(lia)) as (A1 & _ & A3). unfold bbirth, bdeath in A1, A3.
    assert (Z0 := A1 k Hk ltac:(fold r; lia)). assert (Y : (fun t => if Nat.eqb t k then 1 else 0) k mod p = 0).
    { apply (A3 (fun t => if Nat.eqb t k then 1 else 0)); auto.
      - intros t Ht. destruct (Nat.eqb_spec t k); auto. exfalso. apply Ht. subst t. fold r. lia.
      - apply (SB r ltac:(lia) 1%nat (fun _ => 1) (fun _ => g k)); [intros _ _; apply Hlow; auto; lia|]. intros i. f_equal.
        rewrite (Zsum_single n k _ Hk) by (intros t Ht Hne; destruct (Nat.eqb_spec t k); [contradiction|ring]). rewrite Nat.eqb_refl. cbn [Zsum]. ring. }
    cbn beta in Y. rewrite Nat.eqb_refl in Y. destruct Hp as [Hp1 _]. rewrite Z.mod_1_l in Y; lia. }
  assert (Hs : forall r c, r < M -> (forall k, (k < n)%nat -> c k <> 0 -> bbirth bars k <= r) -> Bs r (fun i => Zsum n (fun k => c k * g' k i) - Zsum n (fun k => c k * g k i))).
  { intros r c Hr Hc. apply (SB r Hr n (fun k => c k) (fun k i => if Z.eqb (c k) 0 then 0 else g' k i - g k i)).
    - intros k Hk. destruct (Z.eqb_spec (c k) 0) as [e|e].
      + apply (SB r Hr 0%nat (fun _ => 0) (fun _ _ => 0)); [intros; lia|]. intros i. reflexivity.
      + apply Hd; auto. specialize (Hb0 k Hk). specialize (Hc k Hk e). lia.
    - intros i. f_equal. rewrite <- Zsum_sub. apply Zsum_ext. intros k Hk. destruct (Z.eqb_spec (c k) 0) as [e|e]; [rewrite e|]; ring. }
  assert (Hadd : forall r u v w, r < M -> Bs r u -> Bs r v -> (forall i, w i = u i + v i) -> Bs r w).
  { intros r u v w Hr Hu Hv Hw. apply (SB r Hr 2%nat (fun _ => 1) (fun k => if Nat.eqb k 0 then u else v)); [intros k _; destruct (Nat.eqb k 0); auto|].
    intros i. rewrite Hw. f_equal. cbn [Zsum Nat.eqb]. ring. }
  assert (Hsub : forall r u v w, r < M -> Bs r u -> Bs r v -> (forall i, w i = u i - v i) -> Bs r w).
  { intros r u v w Hr Hu Hv Hw. apply (SB r Hr 2%nat (fun k => if Nat.eqb k 0 then 1 else -1) (fun k => if Nat.eqb k 0 then u else v)); [intros k _; destruct (Nat.eqb k 0); auto|].
    intros i. rewrite Hw. f_equal. cbn [Zsum Nat.eqb]. ring. }
  split; [exact P1|]. split.
  - intros r Hr. destruct (P2 r Hr) as (A1 & A2 & A3). split; [|split].
    + intros k Hk Ha. assert (X1 := Hd r k ltac:(specialize (Hb0 k Hk); lia) Hk ltac:(lia)). apply BZ in X1; [|exact Hr]. assert (X2 := A1 k Hk Ha).
      apply (SZ r Hr 2%nat (fun _ => 1) (fun t => if Nat.eqb t 0 then (fun i => g' k i - g k i) else g k)); [intros t _; destruct (Nat.eqb t 0); auto|]. intros i. f_equal. cbn [Zsum Nat.eqb]. ring.
    + intros v Hv. destruct (A2 v Hv) as (c & C1 & C2). exists c. split; [exact C1|].
      apply (Hsub r _ _ _ Hr C2 (Hs r c Hr ltac:(intros k Hk Hn; destruct (Z_le_gt_dec (bbirth bars k) r); [lia|elim Hn; apply C1; lia]))). intros i. fold n. ring.
    + intros c C1 C2. apply A3; [exact C1|].
      apply (Hsub r _ _ _ Hr C2 (Hs r c Hr ltac:(intros k Hk Hn; destruct (Z_le_gt_dec (bbirth bars k) r); [lia|elim Hn; apply C1; lia]))). intros i. fold n. ring.
  - intros k Hk Hdk. destruct (P3 k Hk Hdk) as (c & C1 & C2). exists c. split; [exact C1|]. fold n in C2.
    assert (Hx := P1 _ (nth_In _ (0, 0) Hk)). assert (Hbk : bbirth bars k <= bdeath bars k) by (unfold bbirth, bdeath; lia).
    assert (X1 := Hd (bdeath bars k) k ltac:(specialize (Hb0 k Hk); lia) Hk Hbk).
    apply (Hsub _ (fun i => (g k i - Zsum n (fun t => c t * g t i)) + (g' k i - g k i)) _ _ Hdk (Hadd _ _ _ _ Hdk C2 X1 ltac:(intros i; reflexivity)) (Hs _ c Hdk ltac:(intros t Ht Hn; destruct (C1 t Hn) as (_ & Y & _); lia))).
    intros i. fold n. ring.
Qed.

Lemma within_subs p B (Br : Z -> (nat -> Z) -> Prop) r : 0 < p -> IK_mph.subspace p B r (Br r) -> Spec_Bars.subspace p (within p B Br r).
Proof.
  intros p_pos [H1 H2] n c b v Hb Hv. split.
  - intros i Hi Hr. rewrite Hv. apply mod_cong_0; auto. apply Zsum_cong0. intros k Hk.
    pose proof (proj1 (Hb k Hk) i Hi Hr) as X. apply mod_cong_0 in X; auto. rewrite X. apply cong_eq. ring.
  - apply (H1 (lc n c b)); [|apply H2; intros k Hk; right; apply Hb; auto].
    apply (null_0 p B r p_pos). intros i Hi. unfold lc. specialize (Hv i). apply cong_mod_iff in Hv; auto. rewrite Hv. apply cong_eq. ring.
Qed.

(** The columns which [module_persistence_homology] returns, if all generators of the degree and of the one above are born at the same radius. *)
Lemma mph_wb_aux rnd p D Bs b0 : chain_input rnd p D Bs -> is_complex p D Bs ->
  forall Hom Im Pre, module_persistence_homology rnd D Bs p = Ok (Hom, Im, Pre) ->
  forall d, (d < length Bs)%nat -> ~ over_zero Bs d ->
  forall M, (forall x, In x (b_bars (nth d Hom empty_basis)) -> snd x <= M) ->
  (0 < b_dim (nth d Bs empty_basis))%nat ->
  (forall x, In x (b_bars (nth d Bs empty_basis)) -> fst x = b0) -> (forall x, In x (b_bars (nth (S d) Bs empty_basis)) -> fst x = b0) ->
  over (nth d Hom empty_basis) (nth d Bs empty_basis) /\
  weak_basis p (within p (b_bars (nth d Bs empty_basis)) (cycles_at p D Bs d)) (within p (b_bars (nth d Bs empty_basis)) (bounds_at p D Bs d)) M
    (b_bars (nth d Hom empty_basis)) (column (b_coords (nth d Hom empty_basis))).
Proof.
  intros HC HX Hom Im Pre E d Hd Ho M HM Hpos HB0 HB1. destruct (mph_cases rnd p D Bs HC) as [(H & J & P & E' & _ & _ & _ & HH & _)|[E' X]]; rewrite E' in E; [|discriminate].
  injection E as -> -> ->. destruct (HH d Hd) as [G _]. destruct (G Ho) as (G1 & g & G2 & G3 & G4).
  pose proof (ci_prime _ _ _ _ HC) as Hp. assert (p_pos : 0 < p) by (destruct Hp; lia). specialize (G1 Hpos). split; [exact G1|].
  destruct G1 as ((_ & Q0 & Qne) & _). rewrite Q0 in G2, G3, G4.
  destruct (ci_base _ _ _ _ HC d Hd) as [_ [[_ (_ & B0 & _)]|[X _]]]; [|lia]. rewrite B0 in G4.
  assert (Hbd : forall x, In x (b_bars (nth d Hom empty_basis)) -> fst x < snd x <= M) by (intros x Hx; split; auto).
  assert (HS : forall r, IK_mph.subspace p (b_bars (nth d Bs empty_basis)) r (bounds_at p D Bs d r)) by (intros r; apply (bnd_sub rnd p D Bs HC)).
  assert (HSB : forall r, Spec_Bars.subspace p (within p (b_bars (nth d Bs empty_basis)) (bounds_at p D Bs d) r)) by (intros r; apply within_subs; auto).
  assert (HSZ : forall r, Spec_Bars.subspace p (within p (b_bars (nth d Bs empty_basis)) (cycles_at p D Bs d) r)).
  { intros r. apply within_subs; auto. apply (cyc_sub rnd p D Bs HC); auto. }
  assert (Hmon : forall r s v, r <= s -> born_by p (b_bars (nth d Bs empty_basis)) r v -> bounds_at p D Bs d r v -> bounds_at p D Bs d s v).
  { intros r s v Hrs Hb Hv. apply (im_mono p _ _ _ r); auto.
    destruct (le_lt_dec (length Bs) (S d)) as [Hl|Hl].
    + rewrite (@nth_overflow _ Bs (S d)) by lia. intros i j _ Hj. cbn in Hj. lia.
    + destruct (ci_base _ _ _ _ HC (S d) Hl) as [_ [[Hp1 _]|[_ X]]].
      * apply (ci_mor _ _ _ _ HC d Hl Hp1 Hpos).
      * rewrite X. intros i j _ Hj. cbn in Hj. lia. }
  apply (wb_shift p _ _ M _ g _ b0 Hp); auto.
  - intros r v _ [V1 V2]. split; [exact V1|]. destruct d as [|d]; [exact Logic.I|apply HX; auto].
  - intros r v _ Hr [V1 V2]. split; [exact V1|]. apply (sub_null p _ r _ _ p_pos (HS r)). intros i Hi. apply living_iff in Hi. destruct Hi as (Hi & _). apply V1; [exact Hi|]. rewrite (HB0 (nth i (b_bars (nth d Bs empty_basis)) (0, 0))) by (apply nth_In; auto). exact Hr.
  - intros r k Hr Hk Hbk. split.
    + intros i Hi Hlt. rewrite (HB0 (nth i (b_bars (nth d Bs empty_basis)) (0, 0))) in Hlt by (apply nth_In; auto). lia.
    + apply G2; auto. intros y Hy. rewrite (HB1 y Hy). lia.
  - split; [exact Hbd|]. split.
    + intros r _. apply (module_quot p _ _ _ _ g Hp); auto. intros r'. apply G2.
    + intros k Hk Hdk. destruct (G3 k Hk) as (c & C1 & C2). exists c. split; [exact C1|]. split; [|exact C2].
      assert (Hne := Hbd _ (nth_In _ (0, 0) Hk)). apply (born_comb p _ _ _ _ g Hp (fun r => proj1 (G2 r)) HS Hmon G3 G4); [|apply (born_g p _ _ _ _ g Hp (fun r => proj1 (G2 r)) HS Hmon G3 G4); auto; unfold bdeath; lia].
      intros t Ht Hn. destruct (C1 t Hn) as (_ & X & _). unfold bdeath. lia.
Qed.
