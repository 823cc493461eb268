(** * Two columns: an extension of two filtered quotients and the quotient which they glue to

    Pure algebra.  A double complex with two columns, of families over the vertices and over the edges of a nerve, is exact over
    a third complex.  Two families of generators with bars, one for each column, together with what the second becomes when it
    dies, then present the homology of the third complex. *)
From Verif Require Import Base ListX Lin Gauss_arith IK_lin Spec_PH Spec_Bars Bars Bars_complex IK_brbar IK_abs MPH_bars Spec_Ext Ext_props.
From Coq Require Import Znumtheory.
Local Open Scope Z_scope.

(** ** Linear maps *)
Record linear (p : Z) {X Y : Type} (f : (X -> Z) -> Y -> Z) : Prop := {
  lin_sum : forall n (c : nat -> Z) b y, cong p (f (fun x => Zsum n (fun k => c k * b k x)) y) (Zsum n (fun k => c k * f (b k) y));
  lin_ext : forall u v, (forall x, cong p (u x) (v x)) -> forall y, cong p (f u y) (f v y)
}.

Lemma lin_2 p {X Y} (f : (X -> Z) -> Y -> Z) a u b v y : linear p f -> cong p (f (fun x => a * u x + b * v x) y) (a * f u y + b * f v y).
Proof.
  intros [H1 H2]. transitivity (f (fun x => Zsum 2 (fun k => (if Nat.eqb k 0 then a else b) * (if Nat.eqb k 0 then u else v) x)) y).
  - apply H2. intros x. cbn [Zsum Nat.eqb]. apply cong_eq. ring.
  - rewrite (H1 2%nat (fun k => if Nat.eqb k 0 then a else b) (fun k => if Nat.eqb k 0 then u else v)). cbn [Zsum Nat.eqb]. apply cong_eq. ring.
Qed.
Lemma lin_add p {X Y} (f : (X -> Z) -> Y -> Z) u v y : linear p f -> cong p (f (fun x => u x + v x) y) (f u y + f v y).
Proof.
  intros H. transitivity (f (fun x => 1 * u x + 1 * v x) y); [apply (lin_ext _ _ H); intros; apply cong_eq; ring|]. rewrite lin_2 by auto. apply cong_eq. ring.
Qed.
Lemma lin_sub p {X Y} (f : (X -> Z) -> Y -> Z) u v y : linear p f -> cong p (f (fun x => u x - v x) y) (f u y - f v y).
Proof.
  intros H. transitivity (f (fun x => 1 * u x + (-1) * v x) y); [apply (lin_ext _ _ H); intros; apply cong_eq; ring|]. rewrite lin_2 by auto. apply cong_eq. ring.
Qed.
Lemma lin_scale p {X Y} (f : (X -> Z) -> Y -> Z) a u y : linear p f -> cong p (f (fun x => a * u x) y) (a * f u y).
Proof.
  intros H. transitivity (f (fun x => a * u x + 0 * u x) y); [apply (lin_ext _ _ H); intros; apply cong_eq; ring|]. rewrite lin_2 by auto. apply cong_eq. ring.
Qed.
Lemma lin_zero p {X Y} (f : (X -> Z) -> Y -> Z) u y : linear p f -> (forall x, cong p (u x) 0) -> cong p (f u y) 0.
Proof.
  intros H E. rewrite (lin_ext _ _ H u (fun x => 0 * u x)); [rewrite lin_scale by auto; apply cong_eq; ring|]. intros x. rewrite E. apply cong_eq. ring.
Qed.

(** ** Families with bars *)
Section Pb.
Context {X : Type}.
Variables (p M : Z) (Zs Bs : Z -> (X -> Z) -> Prop) (bars : list (Z * Z)) (g : nat -> X -> Z).
Hypothesis Hp : prime p.
Hypothesis HP : persistent_basis p Zs Bs M bars g.

Lemma pb_bar k : (k < length bars)%nat -> bbirth bars k < bdeath bars k <= M.
Proof. intros Hk. apply HP. apply nth_In. auto. Qed.

Lemma pb_mem r k : (forall r s v, r <= s < M -> Zs r v -> Zs s v) -> r < M -> (k < length bars)%nat -> bbirth bars k <= r -> Zs r (g k).
Proof.
  intros MZ Hr Hk Hb. pose proof (pb_bar k Hk). apply (MZ (bbirth bars k)); [lia|].
  destruct HP as (_ & Hq & _). destruct (Hq (bbirth bars k) ltac:(lia)) as (H1 & _). apply H1; auto. lia.
Qed.

Lemma pb_span r v : r < M -> Zs r v -> exists c, (forall k, c k <> 0 -> bbirth bars k <= r < bdeath bars k) /\
  Bs r (fun i => v i - Zsum (length bars) (fun k => c k * g k i)).
Proof.
  intros Hr Hv. destruct HP as (_ & Hq & _). destruct (Hq r Hr) as (_ & H2 & _). destruct (H2 v Hv) as (c & Hc & Hb).
  exists c. split; auto. intros k Hk. destruct (Z_le_gt_dec (bbirth bars k) r); [destruct (Z_lt_le_dec r (bdeath bars k)); [lia|]|]; elim Hk; apply Hc; lia.
Qed.

Lemma pb_indep r c : (forall r, r < M -> subspace p (Bs r)) -> r < M -> (forall k, (k < length bars)%nat -> ~ cong p (c k) 0 -> bbirth bars k <= r) ->
  Bs r (fun i => Zsum (length bars) (fun k => c k * g k i)) -> forall k, (k < length bars)%nat -> ~ cong p (c k) 0 -> bdeath bars k <= r.
Proof.
  intros SB Hr Hc HB k Hk Hn. destruct (Z_le_gt_dec (bdeath bars k) r) as [|Hl]; auto. exfalso.
  assert (p_pos : 0 < p) by (destruct Hp; lia).
  destruct HP as (_ & Hq & Hd). destruct (Hq r Hr) as (_ & _ & H3).
  set (al := fun k => (bbirth bars k <=? r) && (r <? bdeath bars k)).
  assert (Al : forall k, al k = true <-> bbirth bars k <= r < bdeath bars k).
  { intros t. unfold al. rewrite Bool.andb_true_iff, Z.leb_le, Z.ltb_lt. lia. }
  apply Hn. apply (mz0 p _ Hp). specialize (H3 (fun k => if al k then c k else 0)). cbn beta in H3.
  assert (E : al k = true) by (apply Al; specialize (Hc k Hk Hn); lia).
  cut ((if al k then c k else 0) mod p = 0); [rewrite E; auto|]. apply H3; auto.
  - intros t Ht. destruct (al t) eqn:Et; auto. apply Al in Et. lia.
  - apply (subs_cong p Hp (Bs r) (fun i => Zsum (length bars) (fun k => c k * g k i) - Zsum (length bars) (fun k => (if al k then 0 else c k) * g k i))).
    + apply SB; auto.
    + intros i. rewrite <- Zsum_sub. apply Zsum_cong. intros t Ht. destruct (al t); apply cong_eq; ring.
    + apply (subs_sub p); auto. apply (subs_lc_cong p Hp); auto. intros t Ht. destruct (al t) eqn:Et; [left; reflexivity|].
      destruct (cong_dec p (c t) 0) as [|Hnt]; [left; auto|right]. apply Hd; auto. specialize (Hc t Ht Hnt).
      destruct (Z_le_gt_dec (bdeath bars t) r) as [|X1]; auto. assert (al t = true) by (apply Al; lia). congruence.
Qed.
End Pb.

(** ** The theorem *)
Section Two.
Context {T0 T1 T2 T3 T4 Y0 Y1 : Type}.
Variables (p M : Z).
Hypothesis Hp : prime p.
(** Chains over the edges in degrees [d] and [d + 1], and over the vertices in degrees [d + 1] and [d + 2]. *)
Variables (C1 : Z -> (T1 -> Z) -> Prop) (C1' : Z -> (T2 -> Z) -> Prop) (C0' : Z -> (T3 -> Z) -> Prop) (C0'' : Z -> (T4 -> Z) -> Prop).
(** Boundaries, Cech differentials, and the maps to the chains of the glued complex in degrees [d] and [d + 1]. *)
Variables (d1 : (T2 -> Z) -> T1 -> Z) (d0 : (T3 -> Z) -> T0 -> Z) (d0' : (T4 -> Z) -> T3 -> Z)
  (ch : (T1 -> Z) -> T0 -> Z) (ch' : (T2 -> Z) -> T3 -> Z) (gl : (T0 -> Z) -> Y0 -> Z) (gl' : (T3 -> Z) -> Y1 -> Z).
Variables (Zq Bq : Z -> (Y1 -> Z) -> Prop) (Z0 B0 : Z -> (T3 -> Z) -> Prop) (Z1 B1 : Z -> (T1 -> Z) -> Prop).
Hypothesis L_d1 : linear p d1.
Hypothesis L_d0 : linear p d0.
Hypothesis L_d0' : linear p d0'.
Hypothesis L_ch : linear p ch.
Hypothesis L_ch' : linear p ch'.
Hypothesis L_gl : linear p gl.
Hypothesis L_gl' : linear p gl'.
Hypothesis S_C1 : forall r, subspace p (C1 r).
Hypothesis S_C1' : forall r, subspace p (C1' r).
Hypothesis S_C0' : forall r, subspace p (C0' r).
Hypothesis S_C0'' : forall r, subspace p (C0'' r).
Hypothesis S_Zq : forall r, subspace p (Zq r).
Hypothesis S_Bq : forall r, subspace p (Bq r).
Hypothesis M_C1 : forall r s v, r <= s -> C1 r v -> C1 s v.
Hypothesis M_C1' : forall r s v, r <= s -> C1' r v -> C1' s v.
Hypothesis M_C0' : forall r s v, r <= s -> C0' r v -> C0' s v.
Hypothesis M_C0'' : forall r s v, r <= s -> C0'' r v -> C0'' s v.
Hypothesis M_Bq : forall r s v, r <= s -> Bq r v -> Bq s v.
(** The complexes. *)
Variable eps : Z.
Hypothesis Heps : eps * eps = 1.
Hypothesis In_ch' : forall r z, r < M -> C1' r z -> C0' r (ch' z).
Hypothesis In_d0' : forall r y, r < M -> C0'' r y -> C0' r (d0' y).
Hypothesis In_d1 : forall r z, r < M -> C1' r z -> C1 r (d1 z).
Hypothesis comm : forall r z, r < M -> C1' r z -> forall x, cong p (d0 (ch' z) x) (eps * ch (d1 z) x).
Hypothesis dd : forall r y, r < M -> C0'' r y -> forall x, cong p (d0 (d0' y) x) 0.
Hypothesis gl_ch : forall r w, r < M -> C1 r w -> forall y, cong p (gl (ch w) y) 0.
Hypothesis gl_ch' : forall r z, r < M -> C1' r z -> forall y, cong p (gl' (ch' z) y) 0.
Hypothesis inj : forall r w, r < M -> C1 r w -> (forall x, cong p (ch w x) 0) -> forall x, cong p (w x) 0.
Hypothesis exact : forall r U, r < M -> C0' r U -> (forall y, cong p (gl (d0 U) y) 0) -> exists w, C1 r w /\ forall x, cong p (d0 U x) (ch w x).
Hypothesis exact' : forall r U, r < M -> C0' r U -> (forall y, cong p (gl' U y) 0) -> exists z, C1' r z /\ forall x, cong p (U x) (ch' z x).
(** The glued complex. *)
Hypothesis Zq_1 : forall r U, r < M -> C0' r U -> (forall y, cong p (gl (d0 U) y) 0) -> Zq r (gl' U).
Hypothesis Zq_2 : forall r c, r < M -> Zq r c -> exists U, C0' r U /\ (forall y, cong p (c y) (gl' U y)) /\ forall y, cong p (gl (d0 U) y) 0.
Hypothesis Bq_1 : forall r y, r < M -> C0'' r y -> Bq r (gl' (d0' y)).
Hypothesis Bq_2 : forall r c, r < M -> Bq r c -> exists y, C0'' r y /\ forall x, cong p (c x) (gl' (d0' y) x).
(** The two columns of the second page. *)
Hypothesis Z0_iff : forall r U, r < M -> Z0 r U <-> C0' r U /\ forall x, cong p (d0 U x) 0.
Hypothesis B0_iff : forall r U, r < M -> B0 r U <-> exists w y, C1' r w /\ (forall x, cong p (d1 w x) 0) /\ C0'' r y /\ forall x, cong p (U x) (ch' w x + d0' y x).
Hypothesis Z1_1 : forall r w U, r < M -> C1 r w -> C0' r U -> (forall x, cong p (d0 U x) (ch w x)) -> Z1 r w.
Hypothesis Z1_2 : forall r w, r < M -> Z1 r w -> C1 r w.
Hypothesis B1_iff : forall r w, r < M -> B1 r w <-> exists y, C1' r y /\ forall x, cong p (w x) (d1 y x).
(** Generators of the columns. *)
Variables (bars0 bars1 : list (Z * Z)) (g0 : nat -> T3 -> Z) (g1 : nat -> T1 -> Z) (u : nat -> T3 -> Z) (sg : Z) (E : mat).
Hypothesis Hsg : sg * sg = 1.
Hypothesis P0 : persistent_basis p Z0 B0 M bars0 g0.
Hypothesis P1 : persistent_basis p Z1 B1 M bars1 g1.
Hypothesis Hu : forall b, (b < length bars1)%nat -> C0' (bbirth bars1 b) (u b) /\ forall x, cong p (d0 (u b) x) (sg * ch (g1 b) x).
(** What the generators of the second column become. *)
Notation na := (length bars0).
Notation nb := (length bars1).
Hypothesis HE : forall i k, ~ cong p (get E i k) 0 -> (i < na)%nat /\ (na <= k < na + nb)%nat.
Hypothesis Hval : forall a b, (a < na)%nat -> (b < nb)%nat -> ~ cong p (get E a (na + b)) 0 -> bbirth bars0 a <= bdeath bars1 b.
Hypothesis Hdead : forall b, (b < nb)%nat -> bdeath bars1 b < M -> exists v, C1' (bdeath bars1 b) v /\ (forall x, cong p (d1 v x) (g1 b x)) /\
  B0 (bdeath bars1 b) (fun x => u b x - eps * sg * ch' v x - Zsum na (fun a => get E a (na + b) * g0 a x)).

Let p_pos : 0 < p. Proof. destruct Hp; lia. Qed.

Lemma B0_sub r : r < M -> subspace p (B0 r).
Proof.
  intros Hr n c b v Hb Hv. rewrite (B0_iff r) by auto.
  destruct (fin_choose (fun _ : T2 => 0) n (fun k w => exists y, C1' r w /\ (forall x, cong p (d1 w x) 0) /\ C0'' r y /\ forall x, cong p (b k x) (ch' w x + d0' y x))) as (W & HW).
  { intros k Hk. apply (B0_iff r (b k) Hr). auto. }
  destruct (fin_choose (fun _ : T4 => 0) n (fun k y => C0'' r y /\ forall x, cong p (b k x) (ch' (W k) x + d0' y x))) as (V & HV).
  { intros k Hk. destruct (HW k Hk) as (y & _ & _ & Y1' & Y2). eauto. }
  exists (fun x => Zsum n (fun k => c k * W k x)), (fun x => Zsum n (fun k => c k * V k x)). split; [|split; [|split]].
  - apply (sub_lc p); auto. intros k Hk. right. destruct (HW k Hk) as (y & H & _). auto.
  - intros x. rewrite (lin_sum _ _ L_d1). apply Zsum_cong0. intros k Hk. destruct (HW k Hk) as (y & _ & H & _). rewrite H. apply cong_eq. ring.
  - apply (sub_lc p); auto. intros k Hk. right. apply HV. auto.
  - intros x. rewrite (lin_sum _ _ L_ch'), (lin_sum _ _ L_d0'). rewrite <- Zsum_add. apply (cong_mod_iff p _ _ p_pos). rewrite Hv. apply (cong_mod_iff p _ _ p_pos).
    apply Zsum_cong. intros k Hk. destruct (HV k Hk) as [_ H]. rewrite H. apply cong_eq. ring.
Qed.

Lemma B0_mono r s v : r <= s < M -> B0 r v -> B0 s v.
Proof.
  intros Hrs H. apply (B0_iff r) in H; [|lia]. apply (B0_iff s); [lia|]. destruct H as (w & y & H1 & H2 & H3 & H4).
  exists w, y. split; [apply (M_C1' r); auto; lia|]. split; auto. split; auto. apply (M_C0'' r); auto; lia.
Qed.

Lemma B1_sub r : r < M -> subspace p (B1 r).
Proof.
  intros Hr n c b v Hb Hv. rewrite (B1_iff r) by auto.
  destruct (fin_choose (fun _ : T2 => 0) n (fun k w => C1' r w /\ forall x, cong p (b k x) (d1 w x))) as (W & HW).
  { intros k Hk. apply (B1_iff r (b k) Hr). auto. }
  exists (fun x => Zsum n (fun k => c k * W k x)). split.
  - apply (sub_lc p); auto. intros k Hk. right. apply HW. auto.
  - intros x. rewrite (lin_sum _ _ L_d1). apply (cong_mod_iff p _ _ p_pos). rewrite Hv. apply (cong_mod_iff p _ _ p_pos).
    apply Zsum_cong. intros k Hk. destruct (HW k Hk) as [_ H]. rewrite H. reflexivity.
Qed.

Lemma Z0_mono r s v : r <= s < M -> Z0 r v -> Z0 s v.
Proof. intros Hrs H. apply (Z0_iff r) in H; [|lia]. apply (Z0_iff s); [lia|]. destruct H. split; auto. apply (M_C0' r); auto; lia. Qed.

Lemma g0_cycle r a : r < M -> (a < na)%nat -> bbirth bars0 a <= r -> Z0 r (g0 a).
Proof. intros Hr Ha Hb. apply (pb_mem p M Z0 B0 bars0 g0); auto. intros r' s v. apply Z0_mono. Qed.

Lemma g1_chain r b : r < M -> (b < nb)%nat -> bbirth bars1 b <= r -> C1 r (g1 b).
Proof.
  intros Hr Hb Hl. pose proof (pb_bar p M Z1 B1 bars1 g1 P1 b Hb) as X. apply (M_C1 (bbirth bars1 b)); auto. apply Z1_2; [lia|].
  destruct P1 as (_ & Hq & _). destruct (Hq (bbirth bars1 b) ltac:(lia)) as (H1 & _). apply H1; auto. lia.
Qed.

Lemma u_chain r b : (b < nb)%nat -> bbirth bars1 b <= r -> C0' r (u b).
Proof. intros Hb Hl. apply (M_C0' (bbirth bars1 b)); auto. apply Hu. auto. Qed.

(** The combination of generators with the given coefficients, before gluing. *)
Definition comb (v : nat -> Z) (x : T3) : Z := Zsum na (fun a => v a * g0 a x) + Zsum nb (fun b => v (na + b)%nat * u b x).
Definition phi (v : nat -> Z) : Y1 -> Z := gl' (comb v).
Notation bars := (bars0 ++ bars1).

Lemma bar_l a : (a < na)%nat -> bbirth bars a = bbirth bars0 a /\ bdeath bars a = bdeath bars0 a.
Proof. intros H. unfold bbirth, bdeath. rewrite app_nth1 by auto. auto. Qed.
Lemma bar_r b : bbirth bars (na + b) = bbirth bars1 b /\ bdeath bars (na + b) = bdeath bars1 b.
Proof. unfold bbirth, bdeath. rewrite app_nth2 by lia. replace (na + b - na)%nat with b by lia. auto. Qed.

Lemma comb_sum n c b x : comb (fun i => Zsum n (fun k => c k * b k i)) x = Zsum n (fun k => c k * comb (b k) x).
Proof.
  unfold comb. rewrite (Zsum_ext na _ (fun a => Zsum n (fun k => c k * (b k a * g0 a x)))).
  2:{ intros a _. rewrite <- Zsum_scale_r. apply Zsum_ext. intros; ring. }
  rewrite (Zsum_ext nb _ (fun a => Zsum n (fun k => c k * (b k (na + a)%nat * u a x)))).
  2:{ intros a _. rewrite <- Zsum_scale_r. apply Zsum_ext. intros; ring. }
  rewrite (Zsum_swap na n), (Zsum_swap nb n), <- Zsum_add. apply Zsum_ext. intros k _. rewrite !Zsum_scale. ring.
Qed.
Lemma comb_cong v w x : (forall i, cong p (v i) (w i)) -> cong p (comb v x) (comb w x).
Proof.
  intros H. unfold comb. rewrite (Zsum_cong p na _ (fun a => w a * g0 a x)) by (intros; rewrite H; reflexivity).
  rewrite (Zsum_cong p nb _ (fun b => w (na + b)%nat * u b x)) by (intros; rewrite H; reflexivity). reflexivity.
Qed.
Lemma phi_lin : linear p phi.
Proof.
  split.
  - intros n c b y. unfold phi. rewrite <- (lin_sum _ _ L_gl'). apply (lin_ext _ _ L_gl'). intros x. apply cong_eq. apply comb_sum.
  - intros v w H y. apply (lin_ext _ _ L_gl'). intros x. apply comb_cong. auto.
Qed.

Lemma comb_chain r v : r < M -> pres_cycle p bars r v -> C0' r (comb v).
Proof.
  intros Hr Hv. unfold comb. apply (sub_add p); auto.
  - apply (subs_lc_cong p Hp); auto. intros a Ha. destruct (cong_dec p (v a) 0) as [|Hn]; [left; auto|right].
    apply (proj1 (Z0_iff r _ Hr)). apply g0_cycle; auto. destruct (Hv a) as [_ X]; [intros X; apply Hn, (mz0 p _ Hp); auto|]. rewrite (proj1 (bar_l a Ha)) in X. exact X.
  - apply (subs_lc_cong p Hp); auto. intros b Hb. destruct (cong_dec p (v (na + b)%nat) 0) as [|Hn]; [left; auto|right].
    apply u_chain; auto. destruct (Hv (na + b)%nat) as [_ X]; [intros X; apply Hn, (mz0 p _ Hp); auto|]. rewrite (proj1 (bar_r b)) in X. exact X.
Qed.

(** The boundary of such a combination. *)
Lemma comb_bd r v x : r < M -> pres_cycle p bars r v -> cong p (d0 (comb v) x) (sg * ch (fun i => Zsum nb (fun b => v (na + b)%nat * g1 b i)) x).
Proof.
  intros Hr Hv. unfold comb. rewrite (lin_add p d0) by auto. rewrite !(lin_sum _ _ L_d0), (lin_sum _ _ L_ch).
  rewrite (Zsum_cong0 p na).
  - rewrite <- Zsum_scale. rewrite Z.add_0_l. apply Zsum_cong. intros b Hb. rewrite (proj2 (Hu b Hb)). apply cong_eq. ring.
  - intros a Ha. destruct (cong_dec p (v a) 0) as [->|Hn]; [apply cong_eq; ring|].
    destruct (Hv a) as [_ X]; [intros X; apply Hn, (mz0 p _ Hp); auto|]. rewrite (proj1 (bar_l a Ha)) in X.
    destruct (proj1 (Z0_iff r _ Hr) (g0_cycle r a Hr Ha X)) as [_ H]. rewrite H. apply cong_eq. ring.
Qed.

Lemma sum_chain r v : r < M -> pres_cycle p bars r v -> C1 r (fun i => Zsum nb (fun b => v (na + b)%nat * g1 b i)).
Proof.
  intros Hr Hv. apply (subs_lc_cong p Hp); auto. intros b Hb. destruct (cong_dec p (v (na + b)%nat) 0) as [|Hn]; [left; auto|right].
  apply g1_chain; auto. destruct (Hv (na + b)%nat) as [_ X]; [intros X; apply Hn, (mz0 p _ Hp); auto|]. rewrite (proj1 (bar_r b)) in X. exact X.
Qed.

Lemma phi_cycle r v : r < M -> pres_cycle p bars r v -> Zq r (phi v).
Proof.
  intros Hr Hv. apply Zq_1; auto; [apply comb_chain; auto|]. intros y.
  rewrite (lin_ext _ _ L_gl _ (fun x => sg * ch (fun i => Zsum nb (fun b => v (na + b)%nat * g1 b i)) x)) by (intros x; apply (comb_bd r); auto).
  rewrite (lin_scale p gl) by auto. rewrite (gl_ch r) by (auto; apply sum_chain; auto). apply cong_eq. ring.
Qed.

Lemma glue_B0 r U : r < M -> B0 r U -> Bq r (gl' U).
Proof.
  intros Hr H. apply (B0_iff r) in H; auto. destruct H as (w & y & H1 & H2 & H3 & H4).
  apply (subs_cong p Hp (Bq r) (gl' (d0' y))); auto. intros x. rewrite (lin_ext _ _ L_gl' _ _ H4). rewrite (lin_add p gl') by auto.
  rewrite (gl_ch' r) by auto. apply cong_eq. ring.
Qed.

Lemma phi_bounds r v : r < M -> pres_bounds p bars E r v -> Bq r (phi v).
Proof.
  intros Hr (c & Hc & Hv). set (rel := fun k i => (if Nat.eqb i k then 1 else 0) - get E i k).
  apply (subs_cong p Hp (Bq r) (fun y => Zsum (length bars) (fun k => c k * phi (rel k) y))); auto.
  { intros y. symmetry. rewrite <- (lin_sum _ _ phi_lin). apply (lin_ext _ _ phi_lin). intros i. apply (cong_mod_iff p _ _ p_pos). apply Hv. }
  apply (subs_lc_cong p Hp); auto. intros k Hk. destruct (cong_dec p (c k) 0) as [|Hn]; [left; auto|right].
  destruct (Hc k) as [_ Hdk]; [intros X; apply Hn, (mz0 p _ Hp); auto|]. rewrite app_length in Hk.
  destruct (Nat.lt_ge_cases k na) as [Ha|Ha].
  - apply (subs_cong p Hp (Bq r) (gl' (g0 k))); auto.
    + intros y. apply (lin_ext _ _ L_gl'). intros x. unfold comb. rewrite (Zsum_cong_single p na k); auto.
      2:{ intros l Hl Hne. unfold rel. apply Nat.eqb_neq in Hne. rewrite Hne. destruct (cong_dec p (get E l k) 0) as [->|X]; [apply cong_eq; ring|]. apply HE in X. lia. }
      rewrite (Zsum_cong0 p nb).
      2:{ intros b Hb. unfold rel. destruct (Nat.eqb_spec (na + b) k); [lia|]. destruct (cong_dec p (get E (na + b) k) 0) as [->|X]; [apply cong_eq; ring|]. apply HE in X. lia. }
      unfold rel. rewrite Nat.eqb_refl. destruct (cong_dec p (get E k k) 0) as [->|X]; [apply cong_eq; ring|]. apply HE in X. lia.
    + apply glue_B0; auto. rewrite (proj2 (bar_l k Ha)) in Hdk. destruct P0 as (_ & _ & Hd). apply Hd; auto.
  - replace k with (na + (k - na))%nat in * by lia. set (b := (k - na)%nat) in *. assert (Hb : (b < nb)%nat) by lia.
    rewrite (proj2 (bar_r b)) in Hdk. destruct (Hdead b Hb ltac:(lia)) as (v0 & V1 & V2 & V3).
    apply (subs_cong p Hp (Bq r) (gl' (fun x => u b x - eps * sg * ch' v0 x - Zsum na (fun a => get E a (na + b) * g0 a x)))); auto.
    + intros y. unfold phi. rewrite (lin_ext _ _ L_gl' (comb (rel (na + b)%nat)) (fun x => u b x - Zsum na (fun a => get E a (na + b) * g0 a x))).
      * rewrite !(lin_sub p gl') by auto. rewrite (lin_scale p gl') by auto. rewrite (gl_ch' (bdeath bars1 b)) by (auto; lia). apply cong_eq. ring.
      * intros x. unfold comb. rewrite (Zsum_cong_single p nb b); auto.
        2:{ intros l Hl Hne. unfold rel. destruct (Nat.eqb_spec (na + l) (na + b)); [lia|]. destruct (cong_dec p (get E (na + l) (na + b)) 0) as [->|X]; [apply cong_eq; ring|]. apply HE in X. lia. }
        unfold rel. rewrite Nat.eqb_refl. rewrite (Zsum_ext na _ (fun a => - (get E a (na + b) * g0 a x))).
        2:{ intros a Ha'. destruct (Nat.eqb_spec a (na + b)); [lia|]. ring. }
        rewrite Zsum_opp. destruct (cong_dec p (get E (na + b) (na + b)) 0) as [->|X]; [apply cong_eq; ring|]. apply HE in X. lia.
    + apply glue_B0; auto. apply (B0_mono (bdeath bars1 b)); auto.
Qed.

Lemma phi_inj r v : r < M -> pres_cycle p bars r v -> Bq r (phi v) -> pres_bounds p bars E r v.
Proof.
  intros Hr Hv HB. apply (Bq_2 r) in HB; auto. destruct HB as (y & Hy & Ey).
  pose proof (comb_chain r v Hr Hv) as HU.
  destruct (exact' r (fun x => comb v x - d0' y x)) as (z & Hz & Ez); auto.
  { apply (subs_sub p); auto. }
  { intros i. rewrite (lin_sub p gl') by auto. specialize (Ey i). unfold phi in Ey. rewrite Ey. apply cong_eq. ring. }
  set (w := fun i => Zsum nb (fun b => v (na + b)%nat * g1 b i)).
  assert (HW : C1 r w) by (apply sum_chain; auto).
  (* the part over the edges bounds *)
  assert (Ew : forall x, cong p (w x) (eps * sg * d1 z x)).
  { assert (X : forall x, cong p (w x - eps * sg * d1 z x) 0).
    { apply (inj r); auto.
      - apply (subs_cong p Hp (C1 r) (fun x => 1 * w x + (- (eps * sg)) * d1 z x)); auto; [intros x; apply cong_eq; ring|].
        apply (S_C1 r 2%nat (fun k => if Nat.eqb k 0 then 1 else - (eps * sg)) (fun k => if Nat.eqb k 0 then w else d1 z)).
        + intros k _. destruct (Nat.eqb k 0); auto.
        + intros x. cbn [Zsum Nat.eqb]. f_equal; ring.
      - intros x. rewrite (lin_sub p ch) by auto. rewrite (lin_scale p ch) by auto.
        assert (A : cong p (d0 (fun x => comb v x - d0' y x) x) (eps * ch (d1 z) x)).
        { rewrite (lin_ext _ _ L_d0 _ _ Ez). apply (comm r); auto. }
        rewrite (lin_sub p d0) in A by auto. rewrite (dd r) in A by auto. rewrite (comb_bd r) in A by auto. fold w in A.
        transitivity (sg * (sg * ch w x - 0) - eps * sg * ch (d1 z) x).
        + apply cong_eq. transitivity ((sg * sg) * ch w x - eps * sg * ch (d1 z) x); [rewrite Hsg; ring|ring].
        + rewrite A. apply cong_eq. ring. }
    intros x. specialize (X x). destruct X as [q Hq]. exists q. lia. }
  assert (HB1 : B1 r w).
  { apply (B1_iff r); auto. exists (fun x => eps * sg * z x). split.
    - apply (S_C1' r 1%nat (fun _ => eps * sg) (fun _ => z)); auto. 
    - intros x. rewrite (lin_scale p d1) by auto. apply Ew. }
  assert (Hbirth : forall k, ~ cong p (v k) 0 -> (k < na + nb)%nat /\ bbirth bars k <= r).
  { intros k Hk. rewrite <- app_length. apply Hv. intros X. apply Hk, (mz0 p _ Hp). auto. }
  assert (Hdb : forall b, (b < nb)%nat -> ~ cong p (v (na + b)%nat) 0 -> bdeath bars1 b <= r).
  { apply (pb_indep p M Z1 B1 bars1 g1 Hp P1 r (fun b => v (na + b)%nat) B1_sub Hr); auto.
    intros b Hb Hn. destruct (Hbirth _ Hn) as [_ X]. rewrite (proj1 (bar_r b)) in X. exact X. }
  (* what the dead generators over the edges have become *)
  destruct (fin_choose (fun _ : T2 => 0) nb (fun b v0 => ~ cong p (v (na + b)%nat) 0 -> C1' r v0 /\ (forall x, cong p (d1 v0 x) (g1 b x)) /\
      B0 r (fun x => u b x - eps * sg * ch' v0 x - Zsum na (fun a => get E a (na + b) * g0 a x)))) as (V & HVV).
  { intros b Hb. destruct (cong_dec p (v (na + b)%nat) 0) as [X|X]; [exists (fun _ => 0); intros Y; contradiction|].
    specialize (Hdb b Hb X). destruct (Hdead b Hb ltac:(lia)) as (v0 & V1 & V2 & V3). exists v0. intros _.
    split; [apply (M_C1' (bdeath bars1 b)); auto|]. split; auto. apply (B0_mono (bdeath bars1 b)); auto. }
  set (c := fun a => v a + Zsum nb (fun b => v (na + b)%nat * get E a (na + b))).
  assert (HB0 : B0 r (fun x => Zsum na (fun a => c a * g0 a x))).
  { set (z' := fun x => z x - eps * sg * Zsum nb (fun b => v (na + b)%nat * V b x)).
    assert (Hz' : C1' r z').
    { apply (subs_sub p (C1' r) z (fun x => eps * sg * Zsum nb (fun b => v (na + b)%nat * V b x))); auto.
      apply (S_C1' r 1%nat (fun _ => eps * sg) (fun _ x => Zsum nb (fun b => v (na + b)%nat * V b x))).
      - intros _ _. apply (subs_lc_cong p Hp); auto. intros b Hb. destruct (cong_dec p (v (na + b)%nat) 0) as [X|X]; [left; auto|right]. apply HVV; auto.
      - intros x. cbn [Zsum]; f_equal. }
    assert (Dz' : forall x, cong p (d1 z' x) 0).
    { intros x. unfold z'. rewrite (lin_sub p d1) by auto. rewrite (lin_scale p d1) by auto. rewrite (lin_sum _ _ L_d1).
      rewrite (Zsum_cong p nb _ (fun b => v (na + b)%nat * g1 b x)).
      - change (Zsum nb (fun b => v (na + b)%nat * g1 b x)) with (w x). rewrite (Ew x).
        apply cong_eq. transitivity (d1 z x - (eps * eps) * (sg * sg) * d1 z x); [ring|]. rewrite Heps, Hsg. ring.
      - intros b Hb. destruct (cong_dec p (v (na + b)%nat) 0) as [->|X]; [apply cong_eq; ring|]. destruct (HVV b Hb X) as (_ & X2 & _). rewrite X2. reflexivity. }
    apply (subs_cong p Hp (B0 r) (fun x => (ch' z' x + d0' y x) - Zsum nb (fun b => v (na + b)%nat * (u b x - eps * sg * ch' (V b) x - Zsum na (fun a => get E a (na + b) * g0 a x))))).
    - apply B0_sub; auto.
    - intros x. unfold z'. rewrite (lin_sub p ch') by auto. rewrite (lin_scale p ch') by auto. rewrite (lin_sum _ _ L_ch').
      specialize (Ez x). cbn beta in Ez. 
      rewrite <- Ez. apply cong_eq. unfold comb, c.
      rewrite (Zsum_ext na (fun a => (v a + Zsum nb (fun b => v (na + b)%nat * get E a (na + b))) * g0 a x)
                (fun a => v a * g0 a x + Zsum nb (fun b => v (na + b)%nat * (get E a (na + b) * g0 a x)))).
      2:{ intros a _. rewrite Z.mul_add_distr_r. f_equal. rewrite <- Zsum_scale_r. apply Zsum_ext. intros; ring. }
      rewrite Zsum_add, (Zsum_swap na nb).
      rewrite (Zsum_ext nb (fun b => v (na + b)%nat * (u b x - eps * sg * ch' (V b) x - Zsum na (fun a => get E a (na + b) * g0 a x)))
                (fun b => v (na + b)%nat * u b x - (eps * sg * (v (na + b)%nat * ch' (V b) x) + Zsum na (fun a => v (na + b)%nat * (get E a (na + b) * g0 a x))))).
      2:{ intros b _. rewrite (Zsum_scale na). ring. }
      rewrite Zsum_sub, Zsum_add, (Zsum_scale nb). ring.
    - apply (subs_sub p (B0 r) (fun x => ch' z' x + d0' y x) (fun x => Zsum nb (fun b => v (na + b)%nat * (u b x - eps * sg * ch' (V b) x - Zsum na (fun a => get E a (na + b) * g0 a x))))).
      + apply B0_sub; auto.
      + apply (B0_iff r); auto. exists z', y. split; auto. split; auto. split; auto. intros x. reflexivity.
      + apply (subs_lc_cong p Hp (B0 r) nb (fun b => v (na + b)%nat) (fun b x => u b x - eps * sg * ch' (V b) x - Zsum na (fun a => get E a (na + b) * g0 a x))); [apply B0_sub; auto|].
        intros b Hb. destruct (cong_dec p (v (na + b)%nat) 0) as [X|X]; [left; auto|right]. apply HVV; auto. }
  assert (Hda : forall a, (a < na)%nat -> ~ cong p (c a) 0 -> bdeath bars0 a <= r).
  { apply (pb_indep p M Z0 B0 bars0 g0 Hp P0 r c B0_sub Hr); auto. intros a Ha Hn.
    destruct (cong_dec p (v a) 0) as [X|X].
    - assert (Y : exists b, (b < nb)%nat /\ ~ cong p (v (na + b)%nat) 0 /\ ~ cong p (get E a (na + b)) 0).
      { assert (Y : ~ cong p (Zsum nb (fun b => v (na + b)%nat * get E a (na + b))) 0).
        { intros Y. apply Hn. unfold c. rewrite X, Y. reflexivity. }
        clear -Y. induction nb as [|n IH]; [elim Y; reflexivity|]. cbn [Zsum] in Y.
        destruct (cong_dec p (v (na + n)%nat) 0) as [C|C]; [|destruct (cong_dec p (get E a (na + n)) 0) as [C'|C']; [|exists n; split; [lia|auto]]].
        - destruct IH as (b & Hb & H); [intros C'; apply Y; rewrite C, C'; apply cong_eq; ring|]. exists b. split; [lia|auto].
        - destruct IH as (b & Hb & H); [intros C''; apply Y; rewrite C', C''; apply cong_eq; ring|]. exists b. split; [lia|auto]. }
      destruct Y as (b & Hb & Y1' & Y2). specialize (Hval a b Ha Hb Y2). specialize (Hdb b Hb Y1'). lia.
    - destruct (Hbirth a X) as [_ Y]. rewrite (proj1 (bar_l a Ha)) in Y. exact Y. }
  exists (fun k => if Nat.ltb k na then c k else if Nat.ltb k (na + nb) then v k else 0). split.
  - intros k Hk. rewrite app_length. destruct (Nat.ltb_spec k na) as [Ha|Ha].
    + split; [lia|]. rewrite (proj2 (bar_l k Ha)). apply Hda; auto. intros X. apply Hk, (mz0 p _ Hp). auto.
    + destruct (Nat.ltb_spec k (na + nb)) as [Hb|Hb]; [|elim Hk; apply Zmod_0_l]. split; [lia|].
      replace k with (na + (k - na))%nat in * by lia. rewrite (proj2 (bar_r (k - na))). apply Hdb; [lia|]. intros X. apply Hk, (mz0 p _ Hp). auto.
  - intros i. apply (cong_mod_iff p _ _ p_pos). rewrite app_length, Zsum_app. symmetry.
    rewrite (Zsum_cong p na _ (fun k => if Nat.eqb i k then c k else 0)).
    2:{ intros k Hk. pose proof Hk as Hk'. apply Nat.ltb_lt in Hk'. rewrite Hk'. destruct (cong_dec p (get E i k) 0) as [->|X]; [|apply HE in X; lia].
        destruct (Nat.eqb i k); apply cong_eq; ring. }
    rewrite (Zsum_ext nb _ (fun b => (if Nat.eqb i (na + b) then v (na + b)%nat else 0) - v (na + b)%nat * get E i (na + b))).
    2:{ intros b Hb. destruct (Nat.ltb_spec (na + b) na); [lia|]. destruct (Nat.ltb_spec (na + b) (na + nb)); [|lia]. destruct (Nat.eqb i (na + b)); ring. }
    rewrite Zsum_sub. destruct (Nat.lt_ge_cases i na) as [Ha|Ha].
    + rewrite (Zsum_single na i); auto; [|intros l _ Hl; destruct (Nat.eqb_spec i l); [congruence|auto]]. rewrite Nat.eqb_refl.
      rewrite (Zsum_0 nb); [|intros b _; destruct (Nat.eqb_spec i (na + b)); [lia|auto]]. apply cong_eq. unfold c. ring.
    + rewrite (Zsum_0 na); [|intros k Hk; destruct (Nat.eqb_spec i k); [lia|auto]].
      rewrite (Zsum_cong0 p nb (fun b => v (na + b)%nat * get E i (na + b))).
      2:{ intros b Hb. destruct (cong_dec p (get E i (na + b)) 0) as [->|X]; [apply cong_eq; ring|]. apply HE in X. lia. }
      destruct (Nat.lt_ge_cases i (na + nb)) as [Hb|Hb].
      * replace i with (na + (i - na))%nat by lia. rewrite (Zsum_single nb (i - na)); [|lia|].
        -- rewrite Nat.eqb_refl. apply cong_eq. ring.
        -- intros l _ Hl. destruct (Nat.eqb_spec (na + (i - na)) (na + l)); [lia|auto].
      * rewrite (Zsum_0 nb); [|intros k Hk; destruct (Nat.eqb_spec i (na + k)); [lia|auto]].
        destruct (cong_dec p (v i) 0) as [->|X]; [reflexivity|]. destruct (Hbirth i X). lia.
Qed.

Lemma phi_surj r c : r < M -> Zq r c -> exists v, pres_cycle p bars r v /\ Bq r (fun y => c y - phi v y).
Proof.
  intros Hr Hc. destruct (Zq_2 r c Hr Hc) as (U & HU & Ec & Eg). destruct (exact r U Hr HU Eg) as (w & Hw & Ew).
  destruct (pb_span p M Z1 B1 bars1 g1 P1 r w Hr (Z1_1 r w U Hr Hw HU Ew)) as (xb & Hxb & Bw).
  apply (B1_iff r) in Bw; auto. destruct Bw as (y' & Hy' & Ey').
  set (ub := fun x => Zsum nb (fun b => (sg * xb b) * u b x)).
  assert (Hub : C0' r ub).
  { apply (sub_lc p); auto. intros b Hb. destruct (Z.eq_dec (xb b) 0) as [X|X]; [left; rewrite X; ring|right]. apply u_chain; auto. specialize (Hxb b X). lia. }
  set (U' := fun x => U x - ub x - eps * ch' y' x).
  assert (HU' : Z0 r U').
  { apply (Z0_iff r); auto. split.
    - apply (subs_sub p (C0' r) (fun x => U x - ub x) (fun x => eps * ch' y' x)); auto; [apply (subs_sub p); auto|].
      apply (S_C0' r 1%nat (fun _ => eps) (fun _ => ch' y')); auto.
    - intros x. unfold U'. rewrite !(lin_sub p d0) by auto. rewrite (lin_scale p d0) by auto. rewrite (comm r) by auto. rewrite Ew.
      unfold ub. rewrite (lin_sum _ _ L_d0).
      rewrite (Zsum_cong p nb _ (fun b => xb b * ch (g1 b) x)).
      + rewrite <- (lin_sum _ _ L_ch). rewrite Z.mul_assoc, Heps.
        rewrite (lin_ext _ _ L_ch (d1 y') (fun x => w x - Zsum nb (fun k => xb k * g1 k x))) by (intros; symmetry; apply Ey').
        rewrite (lin_sub p ch) by auto. apply cong_eq. ring.
      + intros b Hb. rewrite (proj2 (Hu b Hb)). apply cong_eq. transitivity ((sg * sg) * (xb b * ch (g1 b) x)); [ring|]. rewrite Hsg. ring. }
  destruct (pb_span p M Z0 B0 bars0 g0 P0 r U' Hr HU') as (xa & Hxa & BU).
  exists (fun i => if Nat.ltb i na then xa i else if Nat.ltb i (na + nb) then sg * xb (i - na)%nat else 0). split.
  - intros i Hi. rewrite app_length. destruct (Nat.ltb_spec i na) as [Ha|Ha].
    + split; [lia|]. rewrite (proj1 (bar_l i Ha)). apply Hxa. intros X. apply Hi. rewrite X. apply Zmod_0_l.
    + destruct (Nat.ltb_spec i (na + nb)) as [Hb|Hb]; [|elim Hi; apply Zmod_0_l]. split; [lia|].
      replace i with (na + (i - na))%nat by lia. rewrite (proj1 (bar_r (i - na))). apply Hxb. intros X. apply Hi. rewrite X. rewrite Z.mul_0_r. apply Zmod_0_l.
  - apply (subs_cong p Hp (Bq r) (gl' (fun x => U' x - Zsum na (fun k => xa k * g0 k x)))); auto; [|apply glue_B0; auto].
    intros y. unfold phi. rewrite Ec. rewrite <- (lin_sub p gl') by auto. unfold U'. 
    rewrite (lin_ext _ _ L_gl' (fun x => U x - ub x - eps * ch' y' x - Zsum na (fun k => xa k * g0 k x)) (fun x => (U x - (Zsum na (fun k => xa k * g0 k x) + ub x)) - eps * ch' y' x)) by (intros; apply cong_eq; ring).
    rewrite (lin_sub p gl') by auto. rewrite (lin_scale p gl') by auto. rewrite (gl_ch' r) by auto. rewrite Z.mul_0_r, Z.sub_0_r.
    apply (lin_ext _ _ L_gl'). intros x. apply cong_eq. unfold comb, ub. f_equal. f_equal.
    + apply Zsum_ext. intros k Hk. apply Nat.ltb_lt in Hk. rewrite Hk. reflexivity.
    + apply Zsum_ext. intros b Hb. destruct (Nat.ltb_spec (na + b) na); [lia|]. destruct (Nat.ltb_spec (na + b) (na + nb)); [|lia]. replace (na + b - na)%nat with b by lia. reflexivity.
Qed.

Theorem two_columns bars' : barcode p (pres_cycle p bars) (pres_bounds p bars E) M bars' -> barcode p Zq Bq M bars'.
Proof.
  apply (barcode_map p _ _ _ _ phi); auto.
  - intros r _. apply pres_cycle_sub; auto.
  - intros r s v Hrs H i Hi. destruct (H i Hi). split; auto. lia.
  - intros r s v Hrs. apply M_Bq. lia.
  - apply (lin_sum _ _ phi_lin).
  - apply (lin_ext _ _ phi_lin).
  - apply phi_cycle.
  - apply phi_bounds.
  - apply phi_inj.
  - apply phi_surj.
Qed.
End Two.
