(** * The barcode of the Rips filtration on another scale and up to a smaller radius *)
From Verif Require Import Base ListX Lin Basis_model PH_model Simp_model Spec_Simp Simp_props Spec_PH Spec_Rips Spec_Bars Spec_MV Bars Bars_ends Rips_bars Spec_Symm.
From Coq Require Import Permutation Znumtheory.
Local Open Scope Z_scope.

Lemma count_map f (h : Z * Z -> Z * Z) bars : count_bars f (map h bars) = count_bars (fun x => f (h x)) bars.
Proof. unfold count_bars. induction bars as [|x bars IH]; [reflexivity|]. cbn. destruct (f (h x)); cbn; rewrite IH; reflexivity. Qed.

Lemma count_ext f g bars : (forall x, In x bars -> f x = g x) -> count_bars f bars = count_bars g bars.
Proof. intros H. unfold count_bars. rewrite (filter_ext_in _ _ _ H). reflexivity. Qed.

(** ** A smaller radius *)
Lemma barcode_cut {X} p (Zs Bs : Z -> (X -> Z) -> Prop) M M' bars : M' <= M -> barcode p Zs Bs M bars -> barcode p Zs Bs M' (cut_bars M' bars).
Proof.
  intros HM [H1 H2]. unfold cut_bars. split.
  - intros x Hx. apply in_map_iff in Hx. destruct Hx as (y & <- & Hy). apply filter_In in Hy. destruct Hy as [Hy L]. apply Z.ltb_lt in L. specialize (H1 y Hy). cbn. lia.
  - intros r s Hrs. destruct (H2 r s ltac:(lia)) as (g & G). exists g. rewrite count_map.
    replace (count_bars _ (filter _ bars)) with (count_bars (spans r s) bars); [exact G|].
    clear - Hrs H1. unfold count_bars, spans. induction bars as [|x bars IH]; [reflexivity|]. cbn [filter]. specialize (IH (fun y Hy => H1 y (or_intror Hy))).
    destruct (fst x <? M') eqn:E; cbn [filter].
    + replace (s <? snd (fst x, Z.min (snd x) M')) with (s <? snd x) by (cbn; destruct (Z.ltb_spec s (snd x)); symmetry; [apply Z.ltb_lt|apply Z.ltb_ge]; lia). cbn [fst].
      destruct ((fst x <=? r) && (s <? snd x)); cbn [length]; rewrite IH; reflexivity.
    + apply Z.ltb_ge in E. replace (fst x <=? r) with false by (symmetry; apply Z.leb_gt; lia). cbn [andb]. exact IH.
Qed.

(** ** Another scale *)
Lemma scale_grow f : scale f -> forall n, exists k, f (Z.of_nat k) <= Z.of_nat n < f (Z.of_nat k + 1).
Proof.
  intros [H0 Hf]. induction n as [|n (k & K1 & K2)].
  - exists 0%nat. cbn. rewrite H0. split; [lia|]. specialize (Hf 0 1). lia.
  - destruct (Z.le_gt_cases (f (Z.of_nat k + 1)) (Z.of_nat (S n))) as [L|L].
    + exists (S k). replace (Z.of_nat (S k)) with (Z.of_nat k + 1) by lia. split; [exact L|]. specialize (Hf (Z.of_nat k + 1) (Z.of_nat k + 1 + 1)). lia.
    + exists k. lia.
Qed.

Lemma scale_mono f x y : scale f -> 0 <= x -> x <= y -> f x <= f y.
Proof. intros [_ Hf] Hx L. destruct (Z.eq_dec x y) as [->|N]; [lia|]. specialize (Hf x y). lia. Qed.

(** The radius of the first scale which belongs to a radius of the second. *)
Lemma scale_back f : scale f -> forall r', exists r, -1 <= r /\ forall x, 0 <= x -> f x <= r' <-> x <= r.
Proof.
  intros Hf r'. destruct (Z.lt_ge_cases r' 0) as [L|L].
  - exists (-1). split; [lia|]. intros x Hx. pose proof (scale_mono f 0 x Hf ltac:(lia) Hx). rewrite (proj1 Hf) in H. lia.
  - destruct (scale_grow f Hf (Z.to_nat r')) as (k & K1 & K2). rewrite Z2Nat.id in K1, K2 by exact L. exists (Z.of_nat k). split; [lia|]. intros x Hx. split.
    + intros H. destruct (Z.le_gt_cases x (Z.of_nat k)) as [|G]; [assumption|]. pose proof (scale_mono f (Z.of_nat k + 1) x Hf ltac:(lia) ltac:(lia)). lia.
    + intros H. pose proof (scale_mono f x (Z.of_nat k) Hf Hx H). lia.
Qed.

Lemma s_chain_iff p (K1 K2 : nat -> list nat -> Prop) d c : (forall e s, K1 e s <-> K2 e s) -> s_chain p K1 d c <-> s_chain p K2 d c.
Proof. intros H. split; intros C s Hs; apply H; auto. Qed.

Lemma s_cycle_iff p n (K1 K2 : nat -> list nat -> Prop) d c : (forall e s, K1 e s <-> K2 e s) -> s_cycle p n K1 d c <-> s_cycle p n K2 d c.
Proof. intros H. unfold s_cycle. rewrite (s_chain_iff p K1 K2 d c H). tauto. Qed.

Lemma s_bounds_iff p n (K1 K2 : nat -> list nat -> Prop) d c : (forall e s, K1 e s <-> K2 e s) -> s_bounds p n K1 d c <-> s_bounds p n K2 d c.
Proof.
  intros H. unfold s_bounds. rewrite (s_chain_iff p K1 K2 d c H). split; intros [A (w & W & B)]; (split; [exact A|]); exists w; (split; [|exact B]); apply (s_chain_iff p K1 K2 _ w H); exact W.
Qed.

Lemma rips_rescaled f Dist Dist' r r' : rescaled f Dist Dist' -> scale f -> (forall u v, (u < v < length Dist)%nat -> 0 <= dist Dist u v) ->
  (forall x, 0 <= x -> f x <= r' <-> x <= r) -> forall d s, rips Dist d r s <-> rips Dist' d r' s.
Proof.
  intros [HL HD] Hf Hnn Hr d s. unfold rips, clique. rewrite HL. rewrite <- (Hr 0 ltac:(lia)), (proj1 Hf).
  split; intros [(L & I & V & A) R]; (split; [|exact R]); (split; [exact L|split; [exact I|split; [exact V|]]]); intros u v Hu Hv Luv; specialize (A u v Hu Hv Luv); pose proof (V v Hv) as Lv.
  - rewrite HD by lia. apply Hr; [apply Hnn; lia|exact A].
  - rewrite HD in A by lia. apply Hr in A; [exact A|apply Hnn; lia].
Qed.

Theorem rips_scale p f Dist Dist' M d bars : prime p -> scale f -> rescaled f Dist Dist' -> (forall u v, (u < v < length Dist)%nat -> 0 <= dist Dist u v) -> 0 <= M ->
  rips_barcode p Dist M d bars -> rips_barcode p Dist' (f M) d (scale_bars f bars).
Proof.
  intros Hp Hf HD Hnn HM HB. pose proof HB as [H1 H2]. unfold rips_barcode in *. unfold scale_bars.
  assert (P : forall x, In x bars -> 0 <= fst x).
  { intros x Hx. destruct (rips_ends p Dist M d bars x Hp HB Hx) as [F _]. specialize (H1 x Hx). destruct F as [->|[->|(u & v & L & ->)]]; [lia|lia|apply Hnn; lia]. }
  split.
  - intros x Hx. apply in_map_iff in Hx. destruct Hx as (y & <- & Hy). specialize (H1 y Hy). specialize (P y Hy). cbn. split; [apply Hf; lia|apply scale_mono; [exact Hf|lia|lia]].
  - intros r' s' Hrs. destruct (scale_back f Hf r') as (r & R0 & R). destruct (scale_back f Hf s') as (s & S0 & S).
    assert (r <= s). { destruct (Z.lt_ge_cases r 0); [lia|]. apply S; [assumption|]. pose proof (proj2 (R r ltac:(lia)) ltac:(lia)). lia. }
    assert (s < M). { destruct (Z.lt_ge_cases s M) as [|G]; [assumption|]. apply (S M HM) in G. lia. }
    destruct (H2 r s ltac:(lia)) as (g & G). exists g. rewrite count_map.
    replace (count_bars _ bars) with (count_bars (spans r s) bars).
    + rewrite (proj1 HD). apply (quotient_swap p _ _ _ _ _ _ _ (fun v => s_cycle_iff p _ _ _ d v (rips_rescaled f Dist Dist' r r' HD Hf Hnn R)) (fun v => s_bounds_iff p _ _ _ d v (rips_rescaled f Dist Dist' s s' HD Hf Hnn S)) G).
    + apply count_ext. intros x Hx. specialize (P x Hx). specialize (H1 x Hx). unfold spans. cbn [fst snd]. specialize (R (fst x) P). specialize (S (snd x) ltac:(lia)).
      f_equal.
      * destruct (Z.leb_spec (fst x) r); symmetry; [apply Z.leb_le|apply Z.leb_gt]; lia.
      * destruct (Z.ltb_spec s (snd x)); symmetry; [apply Z.ltb_lt|apply Z.ltb_ge]; lia.
Qed.
