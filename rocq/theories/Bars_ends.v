(** * The ends of the bars of a Rips filtration are radii of the filtration *)
From Coq Require Import QArith.
From Verif Require Import Base ListX Lin PH_lin IK_lin Spec_PH Spec_Bars Spec_Rips Rips_props Spec_MV Spec_E2 Bars Rips_bars HP_diag.
From Coq Require Import Permutation Znumtheory.
Local Open Scope Z_scope.

Lemma count_le {A} (f g : A -> bool) l : (forall x, In x l -> g x = true -> f x = true) -> (length (filter g l) <= length (filter f l))%nat.
Proof.
  induction l as [|x l IH]; intros H; [cbn; lia|]. cbn [filter]. specialize (IH (fun y Hy => H y (or_intror Hy))). pose proof (H x (or_introl eq_refl)) as Hx.
  destruct (g x); [rewrite Hx by reflexivity; cbn; lia|]. destruct (f x); cbn; lia.
Qed.
Lemma count_lt {A} (f g : A -> bool) l x : (forall x, In x l -> g x = true -> f x = true) -> In x l -> f x = true -> g x = false -> (length (filter g l) < length (filter f l))%nat.
Proof.
  induction l as [|y l IH]; intros H Hx Fx Gx; [destruct Hx|]. cbn [filter]. pose proof (count_le f g l (fun y Hy => H y (or_intror Hy))) as L. destruct Hx as [->|Hx].
  - rewrite Fx, Gx. cbn. lia.
  - specialize (IH (fun y Hy => H y (or_intror Hy)) Hx Fx Gx). pose proof (H y (or_introl eq_refl)) as Hy. destruct (g y); [rewrite Hy by reflexivity; cbn; lia|]. destruct (f y); cbn; lia.
Qed.

Section Ends.
Context {X : Type}.
Variables (p : Z) (Zs Bs : Z -> (X -> Z) -> Prop) (M : Z) (bars : list (Z * Z)).
Hypothesis Hp : prime p.
Hypothesis HS : forall r, r < M -> Spec_Bars.subspace p (Bs r).
Hypothesis HB : barcode p Zs Bs M bars.

Lemma quotient_swap (Z1 Z2 B1 B2 : (X -> Z) -> Prop) n g al : (forall v, Z1 v <-> Z2 v) -> (forall v, B1 v <-> B2 v) -> quotient_basis p Z1 B1 n g al -> quotient_basis p Z2 B2 n g al.
Proof.
  intros HZ HB' (Q1 & Q2 & Q3). split; [|split].
  - intros k Hk Ha. apply HZ. auto.
  - intros v Hv. apply HZ in Hv. destruct (Q2 v Hv) as (c & C1 & C2). exists c. split; [exact C1|apply HB'; exact C2].
  - intros c Hc Hb. apply HB' in Hb. apply Q3; auto.
Qed.

(** Nothing dies where no boundary appears. *)
Lemma no_death e : (forall v, Bs (e - 1) v <-> Bs e v) -> e < M -> forall x, In x bars -> snd x <> e.
Proof.
  intros HE He x Hx E. destruct HB as [H1 H2]. pose proof (H1 x Hx) as L.
  destruct (H2 (fst x) (e - 1) ltac:(lia)) as (g & G). destruct (H2 (fst x) e ltac:(lia)) as (h & H).
  apply (quotient_swap _ (Zs (fst x)) _ (Bs e) _ _ _ (fun v => iff_refl _) HE) in G.
  pose proof (quotient_dim p Hp _ _ _ _ g h (HS e He) G H) as D. unfold count_bars in D.
  pose proof (count_lt (spans (fst x) (e - 1)) (spans (fst x) e) bars x) as C. unfold spans in C at 1 2 3 4.
  enough ((length (filter (spans (fst x) e) bars) < length (filter (spans (fst x) (e - 1)) bars))%nat) by lia. apply C; auto.
  - intros y _ Hy. apply andb_true_iff in Hy. destruct Hy as [Y1 Y2]. rewrite Y1. apply Z.ltb_lt in Y2. apply Z.ltb_lt. lia.
  - rewrite Z.leb_refl. apply Z.ltb_lt. lia.
  - rewrite E, Z.ltb_irrefl, andb_false_r. reflexivity.
Qed.

(** Nothing is born where no cycle appears. *)
Lemma no_birth b : (forall v, Zs (b - 1) v <-> Zs b v) -> b < M -> forall x, In x bars -> fst x <> b.
Proof.
  intros HE Hb x Hx E. destruct HB as [H1 H2]. pose proof (H1 x Hx) as L.
  destruct (H2 (b - 1) b ltac:(lia)) as (g & G). destruct (H2 b b ltac:(lia)) as (h & H).
  apply (quotient_swap _ (Zs b) _ (Bs b) _ _ _ HE (fun v => iff_refl _)) in G.
  pose proof (quotient_dim p Hp _ _ _ _ g h (HS b Hb) G H) as D. unfold count_bars in D.
  pose proof (count_lt (spans b b) (spans (b - 1) b) bars x) as C. unfold spans in C at 1 2 3 4.
  enough ((length (filter (spans (b - 1) b) bars) < length (filter (spans b b) bars))%nat) by lia. apply C; auto.
  - intros y _ Hy. apply andb_true_iff in Hy. destruct Hy as [Y1 Y2]. rewrite Y2. apply Z.leb_le in Y1. rewrite andb_true_r. apply Z.leb_le. lia.
  - rewrite E, Z.leb_refl. apply Z.ltb_lt. lia.
  - rewrite E. replace (b <=? b - 1) with false by (symmetry; apply Z.leb_gt; lia). reflexivity.
Qed.
End Ends.

Theorem rips_ends p Dist max_r d bars x : prime p -> rips_barcode p Dist max_r d bars -> In x bars -> filtration_value Dist max_r (fst x) /\ filtration_value Dist max_r (snd x).
Proof.
  intros Hp HB Hx. pose proof (proj1 HB x Hx) as L.
  assert (HS : forall r, r < max_r -> Spec_Bars.subspace p (s_bounds p (length Dist) (fun d => rips Dist d r) d)).
  { intros r _. apply s_bounds_sub. destruct Hp; lia. }
  split.
  - destruct (value_dec Dist max_r (fst x)) as [|Hn]; [auto|]. exfalso.
    apply (no_birth p _ _ max_r bars Hp HS HB (fst x)) with (x := x); auto; [|lia]. intros v. split; apply s_cycle_mono; intros e s; [apply rips_mono; lia|apply (rips_gap Dist max_r); exact Hn].
  - destruct (value_dec Dist max_r (snd x)) as [|Hn]; [auto|]. exfalso.
    apply (no_death p _ _ max_r bars Hp HS HB (snd x)) with (x := x); auto; [|destruct (Z.eq_dec (snd x) max_r) as [E|E]; [elim Hn; right; left; exact E|lia]].
    intros v. split; apply s_bounds_mono; intros e s; [apply rips_mono; lia|apply (rips_gap Dist max_r); exact Hn].
Qed.
