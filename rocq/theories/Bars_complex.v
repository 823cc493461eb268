(** * A filtered complex read through persistent bases of its terms

    Spaces [Zc n r] of cycles and [Bc n r] of boundaries, a differential [dd n] from degree [n + 1] to degree [n], a family with bars
    for every degree, and matrices expressing the differential of each generator at its birth. *)
From Verif Require Import Base ListX Lin Gauss_model Gauss_arith Basis_model PH_model IK_lin IK_abs IK_quot IK_mph MPH_bars Spec_PH Spec_IK Spec_Bars Bars.
From Coq Require Import Znumtheory.
Local Open Scope Z_scope.

Section Subs.
Context {X : Type}.
Variable p : Z.
Hypothesis Hp : prime p.
Let p_pos : 0 < p. Proof. destruct Hp. lia. Qed.
Lemma subs_cong (S : (X -> Z) -> Prop) u v : Spec_Bars.subspace p S -> (forall i, cong p (u i) (v i)) -> S u -> S v.
Proof.
  intros HS E Hu. apply (HS 1%nat (fun _ => 1) (fun _ => u)); auto. intros i. apply (cong_mod_iff p _ _ p_pos). cbn [Zsum]. rewrite E. apply cong_eq. ring.
Qed.

Lemma subs_zero (S : (X -> Z) -> Prop) v : Spec_Bars.subspace p S -> (forall i, cong p (v i) 0) -> S v.
Proof. intros HS E. apply (HS 0%nat (fun _ => 0) (fun _ => v)); [intros; lia|]. intros i. apply (cong_mod_iff p _ _ p_pos). apply E. Qed.

(** Combinations of members, up to coefficients which vanish modulo [p]. *)
Lemma subs_lc_cong (S : (X -> Z) -> Prop) n c (b : nat -> X -> Z) : Spec_Bars.subspace p S -> (forall k, (k < n)%nat -> cong p (c k) 0 \/ S (b k)) ->
  S (fun i => Zsum n (fun k => c k * b k i)).
Proof.
  intros HS H. apply (subs_cong S (fun i => Zsum n (fun k => (if cong_dec p (c k) 0 then 0 else c k) * b k i))); auto.
  - intros i. apply Zsum_cong. intros k Hk. destruct (cong_dec p (c k) 0) as [E|_]; [rewrite E; apply cong_eq; ring|reflexivity].
  - apply (sub_lc p); auto. intros k Hk. destruct (cong_dec p (c k) 0) as [E|E]; [left; auto|]. destruct (H k Hk); [contradiction|]. right; auto.
Qed.

Lemma subs_sub (S : (X -> Z) -> Prop) u v : Spec_Bars.subspace p S -> S u -> S v -> S (fun i => u i - v i).
Proof.
  intros HS Hu Hv. apply (HS 2%nat (fun k => if Nat.eqb k 0 then 1 else -1) (fun k => if Nat.eqb k 0 then u else v)).
  - intros k _. destruct (Nat.eqb k 0); auto.
  - intros i. cbn [Zsum Nat.eqb]. f_equal. ring.
Qed.

End Subs.

Section Complex.
Context {X : Type}.
Variables (p M : Z) (Zc Bc : nat -> Z -> (X -> Z) -> Prop) (dd : nat -> (X -> Z) -> X -> Z) (D : list mat) (Bs : list basis) (g : nat -> nat -> X -> Z).
Let bars n := b_bars (nth n Bs empty_basis).
Let Dm n := nth (S n) D (Mat 0 []).
Hypothesis Hp : prime p.
Hypothesis HZ : forall n r, Spec_Bars.subspace p (Zc n r).
Hypothesis HB : forall n r, Spec_Bars.subspace p (Bc n r).
Hypothesis HZm : forall n r s v, r <= s -> Zc n r v -> Zc n s v.
Hypothesis HBm : forall n r s v, r <= s -> Bc n r v -> Bc n s v.
Hypothesis HBZ : forall n r v, Bc n r v -> Zc n r v.
Hypothesis Hlin : forall n N (c : nat -> Z) b v, (forall i, cong p (v i) (Zsum N (fun k => c k * b k i))) -> forall i, cong p (dd n v i) (Zsum N (fun k => c k * dd n (b k) i)).
Hypothesis HdZ : forall n r v, Zc (S n) r v -> Zc n r (dd n v).
Hypothesis HdB : forall n r v, Bc (S n) r v -> Bc n r (dd n v).
Hypothesis Hdd : forall n r v, Zc (S (S n)) r v -> Bc n r (dd n (dd (S n) v)).
Hypothesis Hg : forall n, persistent_basis p (Zc n) (Bc n) M (bars n) (g n).
Hypothesis HDc : forall n, bars (S n) <> [] -> ncols (Dm n) = length (bars (S n)).
Hypothesis HDb : forall n j i, (j < length (bars (S n)))%nat -> (i < length (bars n))%nat -> get (Dm n) i j mod p <> 0 ->
  fst (nth i (bars n) (0, 0)) <= fst (nth j (bars (S n)) (0, 0)).
Hypothesis HDd : forall n j, (j < length (bars (S n)))%nat -> Bc n (fst (nth j (bars (S n)) (0, 0)))
  (fun x => dd n (g (S n) j) x - Zsum (length (bars n)) (fun i => get (Dm n) i j * g n i x)).

Let p_pos : 0 < p. Proof. destruct Hp. lia. Qed.
Let iff0 a : a mod p = 0 <-> cong p a 0. Proof. apply mod_cong_0. exact p_pos. Qed.

Let sub_cong := @subs_cong X p Hp.
Let sub_zero := @subs_zero X p Hp.
Let sub_lc_cong := @subs_lc_cong X p Hp.
Let sub_sub := @subs_sub X p.

(** The combination of the generators with coefficients [x]. *)
Definition comb n (x : nat -> Z) (i : X) : Z := Zsum (length (bars n)) (fun h => x h * g n h i).

Lemma comb_cong n x y i : (forall h, (h < length (bars n))%nat -> cong p (x h) (y h)) -> cong p (comb n x i) (comb n y i).
Proof. intros H. apply Zsum_cong. intros h Hh. apply cong_mul; [auto|reflexivity]. Qed.

Lemma comb_sub n x y i : comb n (fun h => x h - y h) i = comb n x i - comb n y i.
Proof. unfold comb. rewrite <- Zsum_sub. apply Zsum_ext. intros; ring. Qed.

Lemma bar_ok n h : (h < length (bars n))%nat -> fst (nth h (bars n) (0, 0)) < snd (nth h (bars n) (0, 0)) <= M.
Proof. intros Hh. apply (proj1 (Hg n)). apply nth_In. auto. Qed.

Lemma gen_cycle n h r : (h < length (bars n))%nat -> fst (nth h (bars n) (0, 0)) <= r -> Zc n r (g n h).
Proof.
  intros Hh Hr. apply (HZm n _ r _ Hr). pose proof (bar_ok n h Hh). destruct (Hg n) as (_ & Hq & _).
  destruct (Hq (fst (nth h (bars n) (0, 0))) ltac:(lia)) as (H1 & _). apply H1; auto. unfold bbirth, bdeath. lia.
Qed.

Lemma born_cases n r x h : born_by p (bars n) r x -> (h < length (bars n))%nat ->
  cong p (x h) 0 \/ living (bars n) r h = true \/ snd (nth h (bars n) (0, 0)) <= r.
Proof.
  intros Hx Hh. destruct (Z_lt_le_dec r (fst (nth h (bars n) (0, 0)))) as [H1|H1]; [left; apply iff0; auto|].
  destruct (Z_lt_le_dec r (snd (nth h (bars n) (0, 0)))) as [H2|H2]; [|auto]. right. left. apply living_iff. auto.
Qed.

Lemma comb_cycle n r x : born_by p (bars n) r x -> Zc n r (comb n x).
Proof.
  intros Hx. apply (sub_lc_cong (Zc n r)); [apply HZ|]. intros h Hh. destruct (Z_lt_le_dec r (fst (nth h (bars n) (0, 0)))) as [H1|H1].
  - left. apply iff0. auto.
  - right. apply gen_cycle; auto.
Qed.

Lemma comb_null n r x : r < M -> born_by p (bars n) r x -> (Bc n r (comb n x) <-> null_at p (bars n) r x).
Proof.
  intros Hr Hx. destruct (Hg n) as (_ & Hq & Hd). destruct (Hq r Hr) as (_ & _ & H3).
  set (dead := fun h => if living (bars n) r h then 0 else x h).
  assert (HD : Bc n r (comb n dead)).
  { apply (sub_lc_cong (Bc n r)); [apply HB|]. intros h Hh. unfold dead. destruct (living (bars n) r h) eqn:E; [left; reflexivity|].
    destruct (born_cases n r x h Hx Hh) as [H|[H|H]]; [auto|congruence|]. right. apply Hd; auto. }
  split.
  - intros H i Hi. specialize (H3 (restr (bars n) r x)). assert (Hil : (i < length (bars n))%nat) by (apply living_lt in Hi; auto).
    replace (x i) with (restr (bars n) r x i) by (unfold restr; rewrite Hi; reflexivity). apply H3; auto.
    + intros k Hk. unfold restr. destruct (living (bars n) r k) eqn:E; auto. exfalso. apply Hk. apply living_iff in E. unfold bbirth, bdeath. tauto.
    + apply (sub_ext p _ (fun i => comb n x i - comb n dead i)); [apply HB| |apply sub_sub; auto].
      intros z. unfold comb. rewrite <- Zsum_sub. apply Zsum_ext. intros h _. unfold dead, restr. destruct (living (bars n) r h); ring.
  - intros H. apply (sub_cong _ (comb n dead)); [apply HB| |auto]. intros i. apply comb_cong. intros h Hh. unfold dead.
    destruct (living (bars n) r h) eqn:E; [|reflexivity]. symmetry. apply iff0. auto.
Qed.

Lemma restr_born n r x : born_by p (bars n) r (restr (bars n) r x).
Proof.
  intros i Hi Hr. unfold restr. destruct (living (bars n) r i) eqn:E; [|apply Zmod_0_l]. apply living_iff in E. lia.
Qed.

Lemma born_sub n r x y : born_by p (bars n) r x -> born_by p (bars n) r y -> born_by p (bars n) r (fun i => x i - y i).
Proof. intros Hx Hy i Hi Hr. apply iff0. specialize (Hx i Hi Hr). specialize (Hy i Hi Hr). apply iff0 in Hx, Hy. rewrite Hx, Hy. reflexivity. Qed.

Lemma born_lc n r N c b v : (forall k, (k < N)%nat -> born_by p (bars n) r (b k)) -> (forall i, v i mod p = Zsum N (fun k => c k * b k i) mod p) -> born_by p (bars n) r v.
Proof.
  intros Hb Hv i Hi Hr. rewrite Hv. apply iff0. apply Zsum_cong0. intros k Hk. specialize (Hb k Hk i Hi Hr). apply iff0 in Hb. rewrite Hb. apply cong_eq. ring.
Qed.

Lemma comb_restr n r x : r < M -> born_by p (bars n) r x -> Bc n r (fun i => comb n x i - comb n (restr (bars n) r x) i).
Proof.
  intros Hr Hx. apply (sub_ext p _ (comb n (fun h => x h - restr (bars n) r x h))); [apply HB|intros; apply comb_sub|].
  apply comb_null; [auto|apply born_sub; [auto|apply restr_born]|]. intros i Hi. unfold restr. rewrite Hi, Z.sub_diag. apply Zmod_0_l.
Qed.

Lemma comb_onto n r v : r < M -> Zc n r v -> exists x, born_by p (bars n) r x /\ Bc n r (fun i => v i - comb n x i).
Proof.
  intros Hr Hv. destruct (Hg n) as (_ & Hq & _). destruct (Hq r Hr) as (_ & H2 & _). destruct (H2 v Hv) as (c & Hc & Hb). exists c. split; [|exact Hb].
  intros i Hi Hlt. rewrite Hc; [apply Zmod_0_l|]. unfold bbirth. lia.
Qed.

(** The matrix on coefficients. *)
Lemma mapply_sum n x i : (forall j, (length (bars (S n)) <= j)%nat -> x j = 0) -> mapply (Dm n) x i = Zsum (length (bars (S n))) (fun j => get (Dm n) i j * x j).
Proof.
  intros Hx. unfold mapply. destruct (bars (S n)) as [|b l] eqn:E; [|rewrite HDc by (rewrite E; discriminate); rewrite E; reflexivity].
  cbn [length Zsum] in *. apply Zsum_0. intros k _. rewrite Hx by lia. ring.
Qed.

Lemma restr_out n r x j : (length (bars n) <= j)%nat -> restr (bars n) r x j = 0.
Proof. intros H. unfold restr. destruct (living (bars n) r j) eqn:E; auto. apply living_lt in E. lia. Qed.

Lemma mapply_born n r x : born_by p (bars (S n)) r x -> (forall j, (length (bars (S n)) <= j)%nat -> x j = 0) -> born_by p (bars n) r (mapply (Dm n) x).
Proof.
  intros Hx Ho i Hi Hr. rewrite mapply_sum by auto. apply iff0. apply Zsum_cong0. intros j Hj.
  destruct (cong_dec p (get (Dm n) i j) 0) as [E|E]; [rewrite E; apply cong_eq; ring|].
  assert (Hb := HDb n j i Hj Hi ltac:(rewrite iff0; auto)). assert (E' : cong p (x j) 0) by (apply iff0; apply Hx; auto; lia). rewrite E'. apply cong_eq. ring.
Qed.

Lemma comb_dd n r x : born_by p (bars (S n)) r x -> (forall j, (length (bars (S n)) <= j)%nat -> x j = 0) ->
  Bc n r (fun i => dd n (comb (S n) x) i - comb n (mapply (Dm n) x) i).
Proof.
  intros Hx Ho.
  apply (sub_cong _ (fun i => Zsum (length (bars (S n))) (fun j => x j * (dd n (g (S n) j) i - Zsum (length (bars n)) (fun h => get (Dm n) h j * g n h i))))); [apply HB| |].
  - intros i. rewrite (Hlin n (length (bars (S n))) x (g (S n)) (comb (S n) x)) by (intros; reflexivity). apply cong_eq. unfold comb.
    rewrite (Zsum_ext (length (bars n)) (fun h => mapply (Dm n) x h * g n h i) (fun h => Zsum (length (bars (S n))) (fun j => x j * (get (Dm n) h j * g n h i)))).
    2:{ intros h _. rewrite mapply_sum by auto. rewrite <- Zsum_scale_r. apply Zsum_ext. intros; ring. }
    rewrite Zsum_swap, <- Zsum_sub. apply Zsum_ext. intros j _. rewrite Zsum_scale. ring.
  - apply sub_lc_cong; [apply HB|]. intros j Hj. destruct (Z_lt_le_dec r (fst (nth j (bars (S n)) (0, 0)))) as [H|H]; [left; apply iff0; auto|].
    right. apply (HBm n (fst (nth j (bars (S n)) (0, 0)))); auto.
Qed.

(** The matrix is a morphism of persistence modules. *)
Lemma diff_morphism n : morphism p (bars (S n)) (bars n) (Dm n).
Proof.
  intros i j Hi Hj Hne. split; [auto|]. pose proof (bar_ok (S n) j Hj) as Bj. pose proof (bar_ok n i Hi) as Bi.
  pose proof (HDb n j i Hj Hi Hne) as Hb. set (e := snd (nth j (bars (S n)) (0, 0))) in *.
  destruct (Z_lt_le_dec e (snd (nth i (bars n) (0, 0)))) as [Hlt|]; [|auto]. exfalso. apply Hne.
  assert (He : e < M) by lia. destruct (Hg (S n)) as (_ & _ & Hd). specialize (Hd e j He Hj ltac:(unfold bdeath; fold e; lia)). apply HdB in Hd.
  pose proof (HBm n (fst (nth j (bars (S n)) (0, 0))) e _ ltac:(lia) (HDd n j Hj)) as HD1.
  assert (HD2 : Bc n e (comb n (fun h => get (Dm n) h j))).
  { apply (sub_ext p _ (fun z => dd n (g (S n) j) z - (dd n (g (S n) j) z - Zsum (length (bars n)) (fun h => get (Dm n) h j * g n h z)))); [apply HB|intros; unfold comb; ring|].
    apply sub_sub; auto. }
  apply comb_null in HD2; auto.
  - apply (HD2 i). apply living_iff. lia.
  - intros h Hh Hr. destruct (Z.eq_dec (get (Dm n) h j mod p) 0) as [|Hn]; auto. pose proof (HDb n j h Hj Hh Hn). lia.
Qed.

(** ** Homology *)
Definition E2_cycle n r v : Prop := Zc n r v /\ match n with O => True | S n' => Bc n' r (dd n' v) end.
Definition E2_bound n r v : Prop := Zc n r v /\ exists w, Zc (S n) r w /\ Bc n r (fun i => v i - dd n w i).

Lemma dd_sub n u v i : cong p (dd n (fun x => u x - v x) i) (dd n u i - dd n v i).
Proof.
  rewrite (Hlin n 2%nat (fun k => if Nat.eqb k 0 then 1 else -1) (fun k => if Nat.eqb k 0 then u else v)).
  - cbn [Zsum Nat.eqb]. apply cong_eq. ring.
  - intros x. cbn [Zsum Nat.eqb]. apply cong_eq. ring.
Qed.

Lemma ker_iff n r x : r < M -> born_by p (bars (S n)) r x ->
  (null_at p (bars n) r (mapply (Dm n) (restr (bars (S n)) r x)) <-> Bc n r (dd n (comb (S n) x))).
Proof.
  intros Hr Hx. set (y := restr (bars (S n)) r x). pose proof (restr_born (S n) r x) as Hy. fold y in Hy. pose proof (restr_out (S n) r x) as Ho. fold y in Ho.
  rewrite <- comb_null by (auto using mapply_born). pose proof (comb_dd n r y Hy Ho) as H1.
  pose proof (HdB n r _ (comb_restr (S n) r x Hr Hx)) as H2. fold y in H2. split; intros H.
  - apply (sub_cong _ (fun i => dd n (fun z => comb (S n) x z - comb (S n) y z) i + (dd n (comb (S n) y) i - comb n (mapply (Dm n) y) i) + comb n (mapply (Dm n) y) i)); [apply HB| |].
    + intros i. rewrite dd_sub. apply cong_eq. ring.
    + apply (sub_add p); [apply HB| |auto]. apply (sub_add p); [apply HB|auto|auto].
  - apply (sub_cong _ (fun i => (dd n (comb (S n) x) i - (dd n (fun z => comb (S n) x z - comb (S n) y z) i)) - (dd n (comb (S n) y) i - comb n (mapply (Dm n) y) i))); [apply HB| |].
    + intros i. rewrite dd_sub. apply cong_eq. ring.
    + apply sub_sub; [apply HB| |auto]. apply sub_sub; [apply HB|auto|auto].
Qed.

Lemma im_iff n r x : r < M -> born_by p (bars n) r x ->
  (im_at p (bars (S n)) (bars n) (Dm n) r x <-> exists w, Zc (S n) r w /\ Bc n r (fun i => comb n x i - dd n w i)).
Proof.
  intros Hr Hx. split.
  - intros (y & Hn). set (y' := restr (bars (S n)) r y) in *. pose proof (restr_born (S n) r y) as Hy. fold y' in Hy. pose proof (restr_out (S n) r y) as Ho. fold y' in Ho.
    exists (comb (S n) y'). split; [apply comb_cycle; auto|]. apply comb_null in Hn; [|auto|apply born_sub; auto; apply mapply_born; auto].
    apply (sub_ext p _ (fun i => comb n (fun h => x h - mapply (Dm n) y' h) i - (dd n (comb (S n) y') i - comb n (mapply (Dm n) y') i))); [apply HB| |].
    + intros i. rewrite comb_sub. ring.
    + apply sub_sub; [apply HB|auto|]. apply comb_dd; auto.
  - intros (w & Hw & H). destruct (comb_onto (S n) r w Hr Hw) as (y & Hy & Hyb). exists y.
    set (y' := restr (bars (S n)) r y). pose proof (restr_born (S n) r y) as Hy'. fold y' in Hy'. pose proof (restr_out (S n) r y) as Ho. fold y' in Ho.
    apply comb_null; [auto|apply born_sub; auto; apply mapply_born; auto|].
    pose proof (HdB n r _ Hyb) as H1. pose proof (HdB n r _ (comb_restr (S n) r y Hr Hy)) as H2. fold y' in H2. pose proof (comb_dd n r y' Hy' Ho) as H3.
    apply (sub_cong _ (fun i => (comb n x i - dd n w i) + dd n (fun z => w z - comb (S n) y z) i + dd n (fun z => comb (S n) y z - comb (S n) y' z) i
        + (dd n (comb (S n) y') i - comb n (mapply (Dm n) y') i))); [apply HB| |].
    + intros i. rewrite comb_sub, !dd_sub. apply cong_eq. ring.
    + apply (sub_add p); [apply HB| |auto]. apply (sub_add p); [apply HB| |auto]. apply (sub_add p); [apply HB|auto|auto].
Qed.

Lemma diff_complex : forall n r v, r < M -> bounds_at p D Bs (S n) r v -> cycles_at p D Bs (S n) r v.
Proof.
  intros n r v Hr (y & Hn). change (null_at p (bars n) r (mapply (Dm n) (restr (bars (S n)) r v))).
  fold (bars (S (S n))) (bars (S n)) (Dm (S n)) in Hn. set (y' := restr (bars (S (S n))) r y) in *.
  pose proof (restr_born (S (S n)) r y) as Hy. fold y' in Hy. pose proof (restr_out (S (S n)) r y) as Ho. fold y' in Ho.
  set (u := mapply (Dm (S n)) y') in *. assert (Hu : born_by p (bars (S n)) r u) by (apply mapply_born; auto).
  assert (HE : forall i, cong p (mapply (Dm n) (restr (bars (S n)) r v) i) (mapply (Dm n) (restr (bars (S n)) r u) i)).
  { intros i. unfold mapply. apply Zsum_cong. intros j _. apply cong_mul; [reflexivity|]. unfold restr. destruct (living (bars (S n)) r j) eqn:E; [|reflexivity].
    specialize (Hn j E). apply iff0 in Hn. unfold cong in Hn. rewrite Z.sub_0_r in Hn. exact Hn. }
  assert (HK : null_at p (bars n) r (mapply (Dm n) (restr (bars (S n)) r u))).
  { apply ker_iff; auto. pose proof (HdB n r _ (comb_dd (S n) r y' Hy Ho)) as H1. fold u in H1. pose proof (Hdd n r _ (comb_cycle (S (S n)) r y' Hy)) as H2.
    apply (sub_cong _ (fun i => dd n (dd (S n) (comb (S (S n)) y')) i - dd n (fun z => dd (S n) (comb (S (S n)) y') z - comb (S n) u z) i)); [apply HB| |apply sub_sub; auto].
    intros i. rewrite dd_sub. apply cong_eq. ring. }
  intros i Hi. specialize (HK i Hi). apply iff0. apply iff0 in HK. rewrite HE. auto.
Qed.

Lemma diff_is_complex : is_complex p D Bs.
Proof.
  intros n r v _ Hv. destruct (Z_lt_le_dec r M) as [Hr|Hr]; [apply diff_complex; auto|]. intros i Hi.
  apply living_iff in Hi. fold (bars n) in Hi. pose proof (bar_ok n i (proj1 Hi)). lia.
Qed.

(** Reading coordinates as combinations of the generators respects homology in both directions. *)
Section Read.
Variable n : nat.
Let W := within p (bars n) (cycles_at p D Bs n).
Let V := within p (bars n) (bounds_at p D Bs n).

Lemma cyc_iff r x : r < M -> born_by p (bars n) r x -> (cycles_at p D Bs n r x <-> match n with O => True | S n' => Bc n' r (dd n' (comb n x)) end).
Proof. intros Hr Hx. destruct n as [|n']; [cbn; tauto|]. apply (ker_iff n' r x Hr Hx). Qed.

Lemma read_W r : r < M -> Spec_Bars.subspace p (W r).
Proof.
  pose proof cyc_iff as CI. intros Hr N c b v Hb Hv. assert (Hbv : born_by p (bars n) r v) by (apply (born_lc n r N c b); auto; intros k Hk; apply Hb; auto).
  split; auto. apply (CI r v Hr Hbv). destruct n as [|n']; auto.
  assert (HE : forall i, cong p (comb (S n') v i) (Zsum N (fun k => c k * comb (S n') (b k) i))).
  { intros i. transitivity (comb (S n') (fun h => Zsum N (fun k => c k * b k h)) i); [apply comb_cong; intros h _; apply (cong_mod_iff p _ _ p_pos); auto|].
    apply cong_eq. unfold comb. rewrite (Zsum_ext (length (bars (S n'))) _ (fun h => Zsum N (fun k => c k * (b k h * g (S n') h i)))).
    - rewrite Zsum_swap. apply Zsum_ext. intros k _. apply Zsum_scale.
    - intros h _. rewrite <- Zsum_scale_r. apply Zsum_ext. intros; ring. }
  apply (sub_cong _ (fun i => Zsum N (fun k => c k * dd n' (comb (S n') (b k)) i))); [apply HB| |].
  + intros i. symmetry. apply Hlin. auto.
  + apply sub_lc_cong; [apply HB|]. intros k Hk. right. destruct (Hb k Hk) as [H1 H2]. apply (CI r _ Hr H1) in H2. auto.
Qed.

Lemma read_B r : r < M -> Spec_Bars.subspace p (E2_bound n r).
Proof.
  intros Hr N c b v Hb Hv. split; [apply (HZ n r N c b); auto; intros k Hk; apply Hb; auto|].
  assert (Hw : forall K, (K <= N)%nat -> exists w, forall k, (k < K)%nat -> Zc (S n) r (w k) /\ Bc n r (fun i => b k i - dd n (w k) i)).
  { induction K as [|K IH]; intros HK; [exists (fun _ _ => 0); intros; lia|]. destruct IH as (w & Hw); [lia|]. destruct (Hb K ltac:(lia)) as (_ & w' & Hw').
    exists (fun k => if Nat.eqb k K then w' else w k). intros k Hk. destruct (Nat.eqb_spec k K) as [->|Hne]; [exact Hw'|apply Hw; lia]. }
  destruct (Hw N (le_n _)) as (w & Hw'). exists (fun i => Zsum N (fun k => c k * w k i)). split; [apply (HZ (S n) r N c w); [intros k Hk; apply Hw'; auto|reflexivity]|].
  apply (sub_cong _ (fun i => Zsum N (fun k => c k * (b k i - dd n (w k) i)))); [apply HB| |apply sub_lc_cong; [apply HB|]; intros k Hk; right; apply Hw'; auto].
  intros i. rewrite (Hlin n N c w) by (intros; reflexivity). specialize (Hv i). apply (cong_mod_iff p _ _ p_pos) in Hv. rewrite Hv. apply cong_eq. rewrite <- Zsum_sub. apply Zsum_ext. intros; ring.
Qed.

Lemma read_Wm r s v : r <= s < M -> W r v -> W s v.
Proof.
  pose proof cyc_iff as CI. intros Hrs [H1 H2]. assert (Hb : born_by p (bars n) s v) by (intros i Hi Hl; apply H1; auto; lia). split; auto.
  apply (CI s v ltac:(lia) Hb). apply (CI r v ltac:(lia) H1) in H2. destruct n; auto. apply (HBm _ r); auto. lia.
Qed.

Lemma read_Bm r s v : r <= s < M -> E2_bound n r v -> E2_bound n s v.
Proof.
  intros Hrs (H1 & w & H2 & H3). split; [apply (HZm n r); auto; lia|]. exists w. split; [apply (HZm _ r); auto; lia|apply (HBm _ r); auto; lia].
Qed.

Lemma read_lin N (c : nat -> Z) b i : cong p (comb n (fun x => Zsum N (fun k => c k * b k x)) i) (Zsum N (fun k => c k * comb n (b k) i)).
Proof.
  apply cong_eq. unfold comb. rewrite (Zsum_ext (length (bars n)) _ (fun h => Zsum N (fun k => c k * (b k h * g n h i)))).
  + rewrite Zsum_swap. apply Zsum_ext. intros k _. apply Zsum_scale.
  + intros h _. rewrite <- Zsum_scale_r. apply Zsum_ext. intros; ring.
Qed.

Lemma read_ext u v : (forall x, cong p (u x) (v x)) -> forall i, cong p (comb n u i) (comb n v i).
Proof.
  intros H i. apply comb_cong. auto.
Qed.

Lemma read_cycle r v : r < M -> W r v -> E2_cycle n r (comb n v).
Proof.
  pose proof cyc_iff as CI. intros Hr [H1 H2]. split; [apply comb_cycle; auto|]. apply (CI r v Hr H1). auto.
Qed.

Lemma read_bound r v : r < M -> V r v -> E2_bound n r (comb n v).
Proof.
  intros Hr [H1 H2]. split; [apply comb_cycle; auto|]. apply (im_iff n r v Hr H1). auto.
Qed.

Lemma read_inj r v : r < M -> W r v -> E2_bound n r (comb n v) -> V r v.
Proof.
  intros Hr [H1 _] (_ & H2). split; auto. apply (im_iff n r v Hr H1). auto.
Qed.

Lemma read_onto r w : r < M -> E2_cycle n r w -> exists v, W r v /\ E2_bound n r (fun i => w i - comb n v i).
Proof.
  pose proof cyc_iff as CI. intros Hr [H1 H2]. destruct (comb_onto n r w Hr H1) as (x & Hx & Hb). exists x. split.
  + split; auto. apply (CI r x Hr Hx). destruct n as [|n']; auto.
    apply (sub_cong _ (fun i => dd n' w i - dd n' (fun z => w z - comb (S n') x z) i)); [apply HB| |apply sub_sub; auto].
    intros i. rewrite dd_sub. apply cong_eq. ring.
  + split; [apply HBZ; auto|]. exists (fun _ => 0). split; [apply sub_zero; auto; reflexivity|].
    apply (sub_cong _ (fun i => w i - comb n x i)); [apply HB| |auto]. intros i.
    rewrite (Hlin n 0%nat (fun _ => 0) (fun _ _ => 0) (fun _ => 0)) by (intros; reflexivity). cbn [Zsum]. apply cong_eq. ring.
Qed.

Lemma E2_barcode hbars : barcode p W V M hbars -> barcode p (E2_cycle n) (E2_bound n) M hbars.
Proof.
  apply (barcode_map p _ _ _ _ (comb n)); auto using read_W, read_B, read_lin, read_ext, read_cycle, read_bound, read_inj, read_onto.
  - intros r s v. apply read_Wm.
  - intros r s v. apply read_Bm.
Qed.

Lemma E2_pb hbars h : persistent_basis p W V M hbars h -> persistent_basis p (E2_cycle n) (E2_bound n) M hbars (fun k => comb n (h k)).
Proof. apply (pb_map p _ _ _ _ (comb n)); auto using read_W, read_B, read_lin, read_ext, read_cycle, read_bound, read_inj, read_onto. Qed.
End Read.
End Complex.
