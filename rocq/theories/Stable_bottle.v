(** * Interleaved filtered quotients have barcodes which can be matched *)
From Coq Require Import Permutation Znumtheory.
From Verif Require Import Base ListX Lin PH_lin Spec_PH Spec_Bars Bars Spec_Stable Stable_lin Stable_match.
Local Open Scope Z_scope.

(** ** Lists with given counts *)
Lemma nn_table (P : Z -> Z -> nat -> Prop) L N : (forall r s, L <= r <= s -> s < N -> ~ ~ exists n, P r s n) -> ~ ~ exists R, forall r s, L <= r <= s -> s < N -> P r s (R r s).
Proof.
  intros H K. set (k := Z.to_nat (N - L)).
  apply (nn_choice (fun _ : nat => 0%nat) k (fun i f => forall j, (i <= j < k)%nat -> P (L + Z.of_nat i) (L + Z.of_nat j) (f j))).
  - intros i Hi C. apply (nn_choice 0%nat k (fun j n => (i <= j)%nat -> P (L + Z.of_nat i) (L + Z.of_nat j) n)).
    + intros j Hj D. destruct (le_lt_dec i j) as [G|G]; [|apply D; exists 0%nat; intros; lia]. apply (H (L + Z.of_nat i) (L + Z.of_nat j) ltac:(lia) ltac:(lia)). intros (n & Hn). apply D. exists n. auto.
    + intros (f & F). apply C. exists f. intros j Hj. apply F; lia.
  - intros (f & F). apply K. exists (fun r s => f (Z.to_nat (r - L)) (Z.to_nat (s - L))). intros r s H1 H2. specialize (F (Z.to_nat (r - L)) ltac:(lia) (Z.to_nat (s - L)) ltac:(lia)).
    rewrite !Z2Nat.id in F by lia. replace (L + (r - L)) with r in F by lia. replace (L + (s - L)) with s in F by lia. exact F.
Qed.

Lemma ends_exist b k : forall f, (forall s s', b <= s <= s' -> s' < b + Z.of_nat k -> (f s' <= f s)%nat) ->
  exists ys, (forall y, In y ys -> b < y <= b + Z.of_nat k) /\ forall s, b <= s < b + Z.of_nat k -> length (filter (fun y => s <? y) ys) = f s.
Proof.
  induction k as [|k IH]; intros f Hf; [exists []; split; [contradiction|intros; lia]|].
  set (N := b + Z.of_nat k). destruct (IH (fun s => (f s - f N)%nat)) as (ys & Y1 & Y2).
  { intros s s' H1 H2. specialize (Hf s s' H1 ltac:(lia)). lia. }
  exists (repeat (N + 1) (f N) ++ ys). split.
  - intros y Hy. apply in_app_or in Hy. destruct Hy as [Hy|Hy]; [apply repeat_spec in Hy; lia|specialize (Y1 y Hy); lia].
  - intros s Hs. rewrite filter_app, app_length. assert (E : forall n, s < N + 1 -> length (filter (fun y => s <? y) (repeat (N + 1) n)) = n).
    { intros n Hn. induction n as [|n In]; [reflexivity|]. cbn. destruct (Z.ltb_spec s (N + 1)); [cbn; lia|lia]. }
    rewrite E by lia. destruct (Z.eq_dec s N) as [->|Ne].
    + replace (filter (fun y => N <? y) ys) with (@nil Z); [cbn; lia|]. symmetry. clear -Y1. induction ys as [|y ys I]; [reflexivity|]. cbn. destruct (Z.ltb_spec N y) as [L|L]; [specialize (Y1 y (or_introl eq_refl)); lia|apply I; intros z Hz; apply Y1; right; exact Hz].
    + rewrite Y2 by lia. specialize (Hf s N ltac:(lia) ltac:(lia)). lia.
Qed.

Lemma count_app f l l' : count_bars f (l ++ l') = (count_bars f l + count_bars f l')%nat.
Proof. unfold count_bars. rewrite filter_app, app_length. reflexivity. Qed.
Lemma count_pairs b ys r s : count_bars (spans r s) (map (pair b) ys) = if b <=? r then length (filter (fun y => s <? y) ys) else 0%nat.
Proof. unfold count_bars, spans. induction ys as [|y ys IH]; cbn; [destruct (b <=? r); reflexivity|]. destruct (b <=? r); cbn in *; [destruct (s <? y); cbn; lia|exact IH]. Qed.

Lemma bars_exist (R : Z -> Z -> nat) (L N : Z) : (forall s, L <= s < N -> R L s = 0%nat) -> (forall b s, L < b <= s -> s < N -> (R (b - 1)%Z s <= R b s)%nat) ->
  (forall b s s', L < b <= s -> s <= s' < N -> (R b s' + R (b - 1)%Z s <= R b s + R (b - 1)%Z s')%nat) ->
  exists J, (forall x, In x J -> L < fst x < snd x /\ snd x <= N) /\ forall r s, L <= r <= s -> s < N -> count_bars (spans r s) J = R r s.
Proof.
  intros H0 HM HQ.
  assert (S : forall k, exists J, (forall x, In x J -> L < fst x < snd x /\ snd x <= N) /\ forall r s, L <= r <= s -> s < N -> count_bars (spans r s) J = R (Z.min r (L + Z.of_nat k)) s).
  { induction k as [|k IH]; [exists []; split; [contradiction|]; intros r s H1 H2; replace (Z.min r (L + Z.of_nat 0)) with L by lia; rewrite H0 by lia; reflexivity|].
    destruct IH as (J & J1 & J2). set (b := L + Z.of_nat (S k)).
    destruct (ends_exist b (Z.to_nat (N - b)) (fun s => (R b s - R (b - 1)%Z s)%nat)) as (ys & Y1 & Y2).
    { intros s s' G1 G2. specialize (HQ b s s' ltac:(lia) ltac:(lia)). pose proof (HM b s ltac:(lia) ltac:(lia)). pose proof (HM b s' ltac:(lia) ltac:(lia)). lia. }
    exists (J ++ map (pair b) ys). split.
    - intros x Hx. apply in_app_or in Hx. destruct Hx as [Hx|Hx]; [apply J1; exact Hx|]. apply in_map_iff in Hx. destruct Hx as (y & <- & Hy). specialize (Y1 y Hy). cbn. lia.
    - intros r s G1 G2. rewrite count_app, J2, count_pairs by assumption. destruct (Z.leb_spec b r) as [Hb|Hb].
      + rewrite Y2 by lia. replace (Z.min r (L + Z.of_nat k)) with (b - 1) by lia. replace (Z.min r b) with b by lia. pose proof (HM b s ltac:(lia) ltac:(lia)). lia.
      + replace (Z.min r (L + Z.of_nat k)) with r by lia. replace (Z.min r b) with r by lia. lia. }
  destruct (S (Z.to_nat (N - L))) as (J & J1 & J2). exists J. split; [exact J1|]. intros r s G1 G2. rewrite J2 by assumption. f_equal. lia.
Qed.

(** ** Counting by birth and by death *)
Lemma count_birth k d l : count_bars (spans k d) l = (count_bars (spans (k - 1) d) l + above k d l)%nat.
Proof.
  unfold count_bars, spans, above. induction l as [|x l IH]; [reflexivity|]. cbn.
  destruct (Z.leb_spec (fst x) k), (Z.leb_spec (fst x) (k - 1)), (Z.eqb_spec (fst x) k); try lia; cbn; destruct (d <? snd x); cbn; lia.
Qed.
Lemma above_early k d l : (forall x, In x l -> fst x < snd x) -> above k d l = above k (Z.max d k) l.
Proof.
  intros H. unfold above. f_equal. apply filter_ext_in. intros x Hx. specialize (H x Hx). destruct (Z.eqb_spec (fst x) k) as [E|]; [|reflexivity]. cbn. destruct (Z.ltb_spec d (snd x)), (Z.ltb_spec (Z.max d k) (snd x)); lia.
Qed.

(** Number of bars which end at [D] and are born by [t]. *)
Definition ending (D t : Z) (l : list (Z * Z)) : nat := length (filter (fun x => (snd x =? D) && (fst x <=? t)) l).
Lemma count_death D t l : count_bars (spans t (D - 1)) l = (count_bars (spans t D) l + ending D t l)%nat.
Proof.
  unfold count_bars, spans, ending. induction l as [|x l IH]; [reflexivity|]. cbn.
  destruct (Z.ltb_spec (D - 1) (snd x)), (Z.ltb_spec D (snd x)), (Z.eqb_spec (snd x) D); try lia; cbn; destruct (fst x <=? t); cbn; lia.
Qed.
Lemma ending_late D t l : (forall x, In x l -> fst x < snd x) -> ending D t l = ending D (Z.min t (D - 1)) l.
Proof.
  intros H. unfold ending. f_equal. apply filter_ext_in. intros x Hx. specialize (H x Hx). destruct (Z.eqb_spec (snd x) D) as [E|]; [|reflexivity]. cbn. destruct (Z.leb_spec (fst x) t), (Z.leb_spec (fst x) (Z.min t (D - 1))); lia.
Qed.
Lemma filter_none {A} (f : A -> bool) l : (forall x, In x l -> f x = false) -> filter f l = [].
Proof. induction l as [|x l IH]; intros H; [reflexivity|]. cbn. rewrite (H x (or_introl eq_refl)). apply IH. intros y Hy. apply H. right. exact Hy. Qed.
Lemma ending_none D t l : (forall x, In x l -> snd x = D -> t < fst x) -> ending D t l = 0%nat.
Proof. intros H. unfold ending. rewrite filter_none; [reflexivity|]. intros x Hx. destruct (Z.eqb_spec (snd x) D) as [E|]; [|reflexivity]. cbn. apply Z.leb_gt, H; assumption. Qed.
Lemma count_none r s l : (forall x, In x l -> r < fst x \/ snd x <= s) -> count_bars (spans r s) l = 0%nat.
Proof. intros H. unfold count_bars. rewrite filter_none; [reflexivity|]. intros x Hx. unfold spans. destruct (H x Hx) as [L|L]; [apply andb_false_iff; left; apply Z.leb_gt; lia|apply andb_false_iff; right; apply Z.ltb_ge; lia]. Qed.
Lemma ending_top D t l : (forall x, In x l -> snd x <= D) -> ending D t l = count_bars (spans t (D - 1)) l.
Proof. intros H. rewrite count_death, count_none; [lia|]. intros x Hx. right. apply H. exact Hx. Qed.

Definition turn (x : Z * Z) : Z * Z := (snd x, - fst x).
Definition back (c : Z * Z) : Z * Z := (- snd c, fst c).
Definition turn_by (e : Z) (x : Z * Z) : Z * Z := (snd x + e, - (fst x + e)).
Lemma back_turn x : back (turn x) = x.
Proof. destruct x. unfold back, turn. cbn. f_equal. lia. Qed.
Lemma above_turn D d l : above D d (map turn l) = ending D (- d - 1) l.
Proof.
  unfold above, ending. induction l as [|x l IH]; [reflexivity|]. cbn [map filter]. cbn [turn fst snd]. destruct (Z.eqb_spec (snd x) D); cbn; [|exact IH]. destruct (Z.ltb_spec d (- fst x)), (Z.leb_spec (fst x) (- d - 1)); try lia; cbn; lia.
Qed.
Lemma above_turn_by e D d l : above D d (map (turn_by e) l) = ending (D - e) (- d - 1 - e) l.
Proof.
  unfold above, ending. induction l as [|x l IH]; [reflexivity|]. cbn [map filter]. cbn [turn_by fst snd]. destruct (Z.eqb_spec (snd x + e) D), (Z.eqb_spec (snd x) (D - e)); try lia; cbn [andb]; [|exact IH].
  destruct (Z.ltb_spec d (- (fst x + e))), (Z.leb_spec (fst x) (- d - 1 - e)); try lia; cbn; lia.
Qed.

Lemma below_all (l : list (Z * Z)) : exists L, forall x, In x l -> L < fst x.
Proof.
  induction l as [|x l (L & H)]; [exists 0; contradiction|]. exists (Z.min L (fst x - 1)). intros y [<-|Hy]; [lia|]. specialize (H y Hy). lia.
Qed.

Lemma zip_in {A B C} (g : C -> A) (f : B -> C) (l1 : list (A * B)) (l2 : list (C * C)) : map (fun x => f (snd x)) l1 = map snd l2 ->
  map fst (combine (map fst l1) (map (fun c => g (fst c)) l2)) = map fst l1 /\ map snd (combine (map fst l1) (map (fun c => g (fst c)) l2)) = map (fun c => g (fst c)) l2 /\
  forall x y, In (x, y) (combine (map fst l1) (map (fun c => g (fst c)) l2)) -> exists j c, In (x, j) l1 /\ In (c, f j) l2 /\ y = g c.
Proof.
  revert l2. induction l1 as [|[x j] l1 IH]; intros [|[c k] l2] E; try discriminate; [repeat split; contradiction|]. cbn in E. injection E as E1 E2. destruct (IH l2 E2) as (H1 & H2 & H3). cbn. rewrite H1, H2. repeat split.
  intros a b [Q|Q]; [injection Q as <- <-; exists j, c; subst k; auto|]. destruct (H3 a b Q) as (j' & c' & I1 & I2 & I3). exists j', c'. auto.
Qed.

(** ** The theorem *)
Section Bottle.
Context {X : Type}.
Variables (p M e : Z) (Zs Bs Zs' Bs' : Z -> (X -> Z) -> Prop) (bars bars' : list (Z * Z)).
Hypothesis Hp : prime p.
Hypothesis He : 0 <= e.
Hypothesis SZ : forall r, r < M -> subspace p (Zs r).
Hypothesis SB : forall r, r < M -> subspace p (Bs r).
Hypothesis SZ' : forall r, r < M -> subspace p (Zs' r).
Hypothesis SB' : forall r, r < M -> subspace p (Bs' r).
Hypothesis MZ : forall r s v, r <= s < M -> Zs r v -> Zs s v.
Hypothesis MB : forall r s v, r <= s < M -> Bs r v -> Bs s v.
Hypothesis MB' : forall r s v, r <= s < M -> Bs' r v -> Bs' s v.
Hypothesis IZ : forall r v, r + e < M -> Zs r v -> Zs' (r + e) v.
Hypothesis IZ' : forall r v, r + e < M -> Zs' r v -> Zs (r + e) v.
Hypothesis IB : forall r v, r + e < M -> Bs r v -> Bs' (r + e) v.
Hypothesis IB' : forall r v, r + e < M -> Bs' r v -> Bs (r + e) v.
Hypothesis HB : barcode p Zs Bs M bars.
Hypothesis HB' : barcode p Zs' Bs' M bars'.

Let own r s (H : r <= s < M) : exists g, wbasis p (Zs r) (Bs s) (count_bars (spans r s) bars) g.
Proof. destruct HB as [_ H2]. destruct (H2 r s H) as (g & G). exists g. apply basis_weak. exact G. Qed.
Let own' r s (H : r <= s < M) : exists g, wbasis p (Zs' r) (Bs' s) (count_bars (spans r s) bars') g.
Proof. destruct HB' as [_ H2]. destruct (H2 r s H) as (g & G). exists g. apply basis_weak. exact G. Qed.
Let life x : In x bars -> fst x < snd x <= M.
Proof. apply HB. Qed.
Let life' x : In x bars' -> fst x < snd x <= M.
Proof. apply HB'. Qed.

Section Middle.
Variable L : Z.
Hypothesis HL : forall x, In x bars -> L < fst x.
Hypothesis HL' : forall x, In x bars' -> L < fst x.
Variable R : Z -> Z -> nat.
Hypothesis HR : forall r s, L <= r <= s -> s < M - e -> exists g, wbasis p (Zs r) (Bs' (s + e)) (R r s) g.

Lemma middle_low s : L <= s < M - e -> R L s = 0%nat.
Proof.
  intros H. destruct (HR L s ltac:(lia) ltac:(lia)) as (g & G & _). destruct (own L L ltac:(lia)) as (h & _ & S).
  rewrite count_none in S by (intros x Hx; left; apply HL; exact Hx).
  enough (R L s <= 0)%nat by lia. apply (indep_le p Hp (Zs L) (Bs' (s + e)) (Zs L) (Bs L) _ _ g h (SB' (s + e) ltac:(lia)) (fun v H => H)); [|exact G|exact S].
  intros v Hv. apply (MB' (L + e)); [lia|]. apply IB; [lia|exact Hv].
Qed.

Lemma middle_mono b s : L < b <= s -> s < M - e -> (R (b - 1)%Z s <= R b s)%nat.
Proof.
  intros H1 H2. destruct (HR (b - 1) s ltac:(lia) ltac:(lia)) as (g & G & _). destruct (HR b s ltac:(lia) ltac:(lia)) as (h & _ & S).
  apply (indep_le p Hp (Zs (b - 1)) (Bs' (s + e)) (Zs b) (Bs' (s + e)) _ _ g h (SB' (s + e) ltac:(lia))); [|auto|exact G|exact S]. intros v. apply MZ. lia.
Qed.

Lemma middle_quad b s s' : L < b <= s -> s <= s' < M - e -> (R b s' + R (b - 1)%Z s <= R b s + R (b - 1)%Z s')%nat.
Proof.
  intros H1 H2. destruct (HR (b - 1) s ltac:(lia) ltac:(lia)) as (g11 & G11). destruct (HR b s ltac:(lia) ltac:(lia)) as (g21 & G21).
  destruct (HR (b - 1) s' ltac:(lia) ltac:(lia)) as (g12 & G12). destruct (HR b s' ltac:(lia) ltac:(lia)) as (g22 & G22).
  refine (quad p Hp (Zs (b - 1)) (Zs b) (Bs' (s + e)) (Bs' (s' + e)) _ _ _ _ g11 g12 g21 g22 (SZ _ _) (SZ _ _) (SB' _ _) (SB' _ _) _ _ G11 G12 G21 G22); try lia; intros v; [apply MZ; lia|apply MB'; lia].
Qed.

Section List.
Variable J : list (Z * Z).
Hypothesis J1 : forall x, In x J -> L < fst x < snd x /\ snd x <= M - e.
Hypothesis J2 : forall r s, L <= r <= s -> s < M - e -> count_bars (spans r s) J = R r s.

Lemma by_birth_le k d : (above k d J <= above k d bars)%nat.
Proof.
  rewrite (above_early k d J) by (intros x Hx; apply J1; exact Hx). rewrite (above_early k d bars) by (intros x Hx; apply life; exact Hx). set (s := Z.max d k).
  destruct (Z_le_gt_dec k L) as [A|A]; [rewrite (above_none k s J); [lia|]; intros x Hx E; specialize (J1 x Hx); lia|].
  destruct (Z_lt_le_dec s (M - e)) as [B|B]; [|rewrite (above_none k s J); [lia|]; intros x Hx E; specialize (J1 x Hx); lia].
  pose proof (count_birth k s J) as C1. pose proof (count_birth k s bars) as C2. rewrite !J2 in C1 by lia.
  destruct (own (k - 1) s ltac:(lia)) as (g11 & G11). destruct (own k s ltac:(lia)) as (g21 & G21). destruct (HR (k - 1) s ltac:(lia) B) as (g12 & G12). destruct (HR k s ltac:(lia) B) as (g22 & G22).
  enough (R k s + count_bars (spans (k - 1) s) bars <= count_bars (spans k s) bars + R (k - 1) s)%nat by lia.
  refine (quad p Hp (Zs (k - 1)) (Zs k) (Bs s) (Bs' (s + e)) _ _ _ _ g11 g12 g21 g22 (SZ _ _) (SZ _ _) (SB _ _) (SB' _ _) _ _ G11 G12 G21 G22); try lia; intros v; [apply MZ; lia|apply IB; lia].
Qed.

Lemma by_birth_ge k d : k <= d -> (above k (d + 2 * e) bars <= above k d J)%nat.
Proof.
  intros H. destruct (Z_le_gt_dec k L) as [A|A]; [rewrite (above_none k _ bars); [lia|]; intros x Hx E; specialize (HL x Hx); lia|].
  destruct (Z_lt_le_dec (d + 2 * e) M) as [B|B]; [|rewrite (above_none k _ bars); [lia|]; intros x Hx E; specialize (life x Hx); lia].
  pose proof (count_birth k d J) as C1. pose proof (count_birth k (d + 2 * e) bars) as C2. rewrite !J2 in C1 by lia.
  destruct (own (k - 1) (d + 2 * e) ltac:(lia)) as (g12 & G12). destruct (own k (d + 2 * e) ltac:(lia)) as (g22 & G22). destruct (HR (k - 1) d ltac:(lia) ltac:(lia)) as (g11 & G11). destruct (HR k d ltac:(lia) ltac:(lia)) as (g21 & G21).
  enough (count_bars (spans k (d + 2 * e)) bars + R (k - 1) d <= R k d + count_bars (spans (k - 1) (d + 2 * e)) bars)%nat by lia.
  refine (quad p Hp (Zs (k - 1)) (Zs k) (Bs' (d + e)) (Bs (d + 2 * e)) _ _ _ _ g11 g12 g21 g22 (SZ _ _) (SZ _ _) (SB' _ _) (SB _ _) _ _ G11 G12 G21 G22); try lia; intros v; [apply MZ; lia|].
  intros Hv. replace (d + 2 * e) with (d + e + e) by lia. apply IB'; [lia|exact Hv].
Qed.

Lemma by_death_le D t : (ending (D - e) (t - e) J <= ending D t bars')%nat.
Proof.
  rewrite (ending_late (D - e) (t - e) J) by (intros x Hx; apply J1; exact Hx). rewrite (ending_late D t bars') by (intros x Hx; apply life'; exact Hx).
  replace (Z.min (t - e) (D - e - 1)) with (Z.min t (D - 1) - e) by lia. set (q := Z.min t (D - 1)).
  destruct (Z_le_gt_dec (q - e) L) as [A|A]; [rewrite (ending_none (D - e) (q - e) J); [lia|]; intros x Hx E; specialize (J1 x Hx); lia|].
  destruct (Z_lt_le_dec M D) as [B|B]; [rewrite (ending_none (D - e) (q - e) J); [lia|]; intros x Hx E; specialize (J1 x Hx); lia|].
  destruct (Z.eq_dec D M) as [->|Ne].
  - rewrite (ending_top (M - e)) by (intros x Hx; apply J1; exact Hx). rewrite (ending_top M) by (intros x Hx; apply life'; exact Hx). rewrite J2 by lia.
    destruct (HR (q - e) (M - e - 1) ltac:(lia) ltac:(lia)) as (g & G & _). destruct (own' q (M - 1) ltac:(lia)) as (h & _ & S). replace (M - e - 1 + e) with (M - 1) in G by lia.
    apply (indep_le p Hp (Zs (q - e)) (Bs' (M - 1)) (Zs' q) (Bs' (M - 1)) _ _ g h (SB' (M - 1) ltac:(lia))); [|auto|exact G|exact S]. intros v Hv. replace q with (q - e + e) by lia. apply IZ; [lia|exact Hv].
  - pose proof (count_death (D - e) (q - e) J) as C1. pose proof (count_death D q bars') as C2. rewrite !J2 in C1 by lia.
    destruct (HR (q - e) (D - e - 1) ltac:(lia) ltac:(lia)) as (g11 & G11). destruct (HR (q - e) (D - e) ltac:(lia) ltac:(lia)) as (g12 & G12).
    destruct (own' q (D - 1) ltac:(lia)) as (g21 & G21). destruct (own' q D ltac:(lia)) as (g22 & G22). replace (D - e - 1 + e) with (D - 1) in G11 by lia. replace (D - e + e) with D in G12 by lia.
    enough (count_bars (spans q D) bars' + R (q - e) (D - e - 1) <= count_bars (spans q (D - 1)) bars' + R (q - e) (D - e))%nat by lia.
    refine (quad p Hp (Zs (q - e)) (Zs' q) (Bs' (D - 1)) (Bs' D) _ _ _ _ g11 g12 g21 g22 (SZ _ _) (SZ' _ _) (SB' _ _) (SB' _ _) _ _ G11 G12 G21 G22); try lia; intros v; [|apply MB'; lia].
    intros Hv. replace q with (q - e + e) by lia. apply IZ; [lia|exact Hv].
Qed.

Lemma by_death_ge D t : t < D -> (ending D (t - 2 * e) bars' <= ending (D - e) (t - e) J)%nat.
Proof.
  intros H. destruct (Z_le_gt_dec (t - e) L) as [A|A]; [rewrite (ending_none D (t - 2 * e) bars'); [lia|]; intros x Hx E; specialize (HL' x Hx); lia|].
  destruct (Z_lt_le_dec M D) as [B|B]; [rewrite (ending_none D (t - 2 * e) bars'); [lia|]; intros x Hx E; specialize (life' x Hx); lia|].
  destruct (Z.eq_dec D M) as [->|Ne].
  - rewrite (ending_top (M - e)) by (intros x Hx; apply J1; exact Hx). rewrite (ending_top M) by (intros x Hx; apply life'; exact Hx). rewrite J2 by lia.
    destruct (HR (t - e) (M - e - 1) ltac:(lia) ltac:(lia)) as (g & _ & S). destruct (own' (t - 2 * e) (M - 1) ltac:(lia)) as (h & G & _). replace (M - e - 1 + e) with (M - 1) in S by lia.
    apply (indep_le p Hp (Zs' (t - 2 * e)) (Bs' (M - 1)) (Zs (t - e)) (Bs' (M - 1)) _ _ h g (SB' (M - 1) ltac:(lia))); [|auto|exact G|exact S]. intros v Hv. replace (t - e) with (t - 2 * e + e) by lia. apply IZ'; [lia|exact Hv].
  - pose proof (count_death (D - e) (t - e) J) as C1. pose proof (count_death D (t - 2 * e) bars') as C2. rewrite !J2 in C1 by lia.
    destruct (HR (t - e) (D - e - 1) ltac:(lia) ltac:(lia)) as (g21 & G21). destruct (HR (t - e) (D - e) ltac:(lia) ltac:(lia)) as (g22 & G22).
    destruct (own' (t - 2 * e) (D - 1) ltac:(lia)) as (g11 & G11). destruct (own' (t - 2 * e) D ltac:(lia)) as (g12 & G12). replace (D - e - 1 + e) with (D - 1) in G21 by lia. replace (D - e + e) with D in G22 by lia.
    enough (R (t - e) (D - e) + count_bars (spans (t - 2 * e) (D - 1)) bars' <= R (t - e) (D - e - 1) + count_bars (spans (t - 2 * e) D) bars')%nat by lia.
    refine (quad p Hp (Zs' (t - 2 * e)) (Zs (t - e)) (Bs' (D - 1)) (Bs' D) _ _ _ _ g11 g12 g21 g22 (SZ' _ _) (SZ _ _) (SB' _ _) (SB' _ _) _ _ G11 G12 G21 G22); try lia; intros v; [|apply MB'; lia].
    intros Hv. replace (t - e) with (t - 2 * e + e) by lia. apply IZ'; [lia|exact Hv].
Qed.

Lemma list_matched : matched_bars e bars bars'.
Proof.
  destruct (keyed (2 * e) (fun k => k) ltac:(lia) (length bars) bars J eq_refl) as (l1 & u1 & A1 & A2 & A3 & A4).
  { intros x Hx. apply J1. exact Hx. }
  { exact by_birth_le. }
  { intros k d H. apply by_birth_ge. exact H. }
  destruct (keyed (2 * e) (fun k => - k) ltac:(lia) (length (map turn bars')) (map turn bars') (map (turn_by e) J) eq_refl) as (l2 & u2 & B1 & B2 & B3 & B4).
  { intros x Hx. apply in_map_iff in Hx. destruct Hx as (y & <- & Hy). specialize (J1 y Hy). cbn. lia. }
  { intros k d. rewrite above_turn, above_turn_by. apply by_death_le. }
  { intros k d H. rewrite above_turn, above_turn_by. replace (- (d + 2 * e) - 1) with (- d - 1 - 2 * e) by lia. apply by_death_ge. lia. }
  assert (P : Permutation (map snd l2) (map (fun x => turn_by e (snd x)) l1)).
  { rewrite <- B2. rewrite <- (map_map snd (turn_by e)). apply Permutation_map. exact A2. }
  destruct (Permutation_map_inv _ _ P) as (l3 & E & Q). symmetry in E.
  destruct (zip_in back (turn_by e) l3 l2 E) as (Z1 & Z2 & Z3).
  exists (combine (map fst l3) (map (fun c => back (fst c)) l2)), u1, (map back u2). rewrite Z1, Z2. split; [|split; [|split]].
  - rewrite A1. apply Permutation_app_tail, Permutation_map. exact Q.
  - rewrite <- (map_map fst back), <- map_app, <- B1, map_map. rewrite (map_ext _ (fun x => x) back_turn), map_id. reflexivity.
  - intros x y Hxy. destruct (Z3 x y Hxy) as (j & c & I1 & I2 & ->). apply (Permutation_in _ (Permutation_sym Q)) in I1. specialize (A3 x j I1). specialize (B3 c _ I2). unfold turn_by, back in *. cbn [fst snd] in *. lia.
  - intros x [Hx|Hx]; [specialize (A4 x Hx); cbv beta in A4; lia|]. apply in_map_iff in Hx. destruct Hx as (c & <- & Hc). specialize (B4 c Hc). unfold back. cbv beta in B4. cbn [fst snd] in *. lia.
Qed.
End List.
End Middle.

Theorem bottleneck : matched_bars e bars bars'.
Proof.
  destruct (matched_dec e bars bars') as [Y|N]; [exact Y|]. exfalso.
  destruct (below_all (bars ++ bars')) as (L & HL).
  apply (nn_table (fun r s n => exists g, wbasis p (Zs r) (Bs' (s + e)) n g) L (M - e)).
  - intros r s H1 H2. apply (wbasis_exists p Hp (Zs r) (Bs' (s + e)) (count_bars (spans r r) bars) (SB' (s + e) ltac:(lia))).
    intros n g G. destruct (own r r ltac:(lia)) as (h & _ & S). apply (indep_le p Hp (Zs r) (Bs' (s + e)) (Zs r) (Bs r) _ _ g h (SB' (s + e) ltac:(lia)) (fun v H => H)); [|exact G|exact S].
    intros v Hv. apply (MB' (r + e)); [lia|]. apply IB; [lia|exact Hv].
  - intros (R & HR).
    assert (H1 : forall x, In x bars -> L < fst x) by (intros x Hx; apply HL, in_or_app; left; exact Hx).
    assert (H2 : forall x, In x bars' -> L < fst x) by (intros x Hx; apply HL, in_or_app; right; exact Hx).
    destruct (bars_exist R L (M - e)) as (J & J1 & J2).
    + intros s Hs. apply (middle_low L H1 R HR s Hs).
    + intros b s G1 G2. apply (middle_mono L R HR); assumption.
    + intros b s s' G1 G2. apply (middle_quad L R HR); assumption.
    + apply N. apply (list_matched L H1 H2 R HR J J1 J2).
Qed.
End Bottle.
Print Assumptions bottleneck.
