(** * Cones: bars end by the radius of the cloud *)
From Coq Require Import QArith Permutation Znumtheory Sorted.
From Verif Require Import Base ListX SortX Lin Basis_model PH_model Simp_model SS_model Cover_model HP_model Spec_Simp Simp_lists Simp_props Spec_PH Spec_Rips Rips_bd Rips_props Spec_Bars Spec_Call Spec_MV Spec_Two
  Bars Bars_complex Bars_ends Rips_bars Nerve_bd Nerve_alg Spec_E2 Spec_Agree Agree_props MV_props Spec_Comp Rips_comp Comp_props Spec_Ends.
Local Open Scope Z_scope.

Section Cone.
Variables (p : Z) (Dist : list (list Z)) (e : Z) (a : nat).
Hypothesis Hp : prime p.
Hypothesis He : 0 <= e.
Hypothesis Ha : centre Dist e a.
Let n := length Dist.
Let p1 : 1 < p. Proof. destruct Hp. lia. Qed.

Lemma cone_simplex d s t : e <= s -> rips Dist d s t -> ~ In a t -> rips Dist (S d) s (insert_vertex a t).
Proof.
  intros Hs [(HL & HI & HB & HA) _] Hn. split; [|lia]. split; [rewrite insert_length, HL by assumption; reflexivity|]. split; [apply insert_increasing; assumption|]. split.
  - intros v Hv. apply insert_In in Hv; [|exact Hn]. destruct Hv as [->|Hv]; [apply Ha|apply HB; exact Hv].
  - intros u v Hu Hv L. apply insert_In in Hu; [|exact Hn]. apply insert_In in Hv; [|exact Hn]. destruct Hu as [->|Hu]; destruct Hv as [->|Hv]; [lia| | |apply HA; assumption].
    + destruct (proj2 Ha v (HB v Hv) ltac:(lia)) as [[_ D]|[X _]]; lia.
    + destruct (proj2 Ha u (HB u Hu) ltac:(lia)) as [[X _]|[_ D]]; lia.
Qed.

Definition cone_on (c : list nat -> Z) (t : list nat) : Z := if incb t then cone_at a c t else 0.

Lemma cone_chain d s c : e <= s -> s_chain p (fun d => rips Dist d s) d c -> s_chain p (fun d => rips Dist d s) (S d) (cone_on c).
Proof.
  intros Hs H t Ht. unfold cone_on in Ht. destruct (incb t) eqn:E; [|elim Ht; apply Zmod_0_l]. apply incb_ok in E. unfold cone_at in Ht. destruct (memn a t) eqn:Ea; [|elim Ht; apply Zmod_0_l]. apply memn_In in Ea.
  rewrite <- (insert_without a t E Ea). apply cone_simplex; [exact Hs| |rewrite without_In; tauto]. apply H. intros E0. apply Ht. rewrite Zmult_mod, E0, Z.mul_0_r. apply Zmod_0_l.
Qed.

(** Every cycle of positive degree is the boundary of its cone. *)
Lemma cone_bounds d s c : (0 < d)%nat -> e <= s -> s_cycle p n (fun d => rips Dist d s) d c -> s_bounds p n (fun d => rips Dist d s) d c.
Proof.
  intros Hd Hs [H1 H2]. split; [exact H1|]. exists (cone_on c). split; [apply cone_chain; assumption|]. intros t Ht L. apply cong_iff_mod; [lia|].
  pose proof (cone_bd n a c t (proj1 Ha) Ht) as B. assert (E : simplicial_bd n (cone_on c) t = simplicial_bd n (cone_at a c) t).
  { apply bd_ext; [exact Ht|]. intros u Hu. unfold cone_on. rewrite (proj2 (incb_ok u) Hu). reflexivity. }
  rewrite E. destruct (memn a t) eqn:Ea; [|apply cong_eq; lia]. apply memn_In in Ea.
  assert (Q : cong p (simplicial_bd n c (without a t)) 0).
  { apply cong_iff_mod; [lia|]. rewrite Zmod_0_l. apply H2; [exact Hd|apply without_increasing; exact Ht|]. rewrite <- (insert_without a t Ht Ea) in L.
    rewrite insert_length in L; [lia|apply without_increasing; exact Ht|rewrite without_In; tauto]. }
  destruct Q as [q Q]. exists (- (sgn a (without a t) * q)). nia.
Qed.

Lemma cone_none d M bars s : (0 < d)%nat -> rips_barcode p Dist M d bars -> e <= s < M -> count_bars (spans s s) bars = 0%nat.
Proof.
  intros Hd [_ HB] Hs. destruct (HB s s ltac:(lia)) as [g Hg]. assert (SB : subspace p (s_bounds p n (fun d => rips Dist d s) d)) by (apply s_bounds_sub; exact p1).
  refine (quotient_dim p Hp _ _ _ _ _ (fun _ _ => 0) SB Hg _). split; [intros; lia|]. split; [|intros; lia]. intros v Hv. exists (fun _ => 0). split; [reflexivity|].
  refine (sub_ext p _ v _ SB _ _); [intros i; cbn [Zsum]; ring|]. apply cone_bounds; [exact Hd|lia|exact Hv].
Qed.

Lemma centre_components s : e <= s -> components Dist s [a].
Proof.
  intros Hs. split; [repeat constructor; intros []|]. split; [intros v [<-|[]]; apply Ha|]. split; [|intros u v [<-|[]] [<-|[]] _; reflexivity].
  intros v Hv. exists a. split; [left; reflexivity|]. destruct (Nat.eq_dec v a) as [->|Hne]; [apply joined_refl|]. apply joined_step with a; [apply joined_refl|].
  destruct (proj2 Ha v Hv Hne) as [[X D]|[X D]]; [left|right]; (split; [exact X|lia]).
Qed.

Lemma filter_unique {A} (f : A -> bool) l x : length (filter f l) = 1%nat -> In x l -> f x = true -> filter f l = [x].
Proof.
  intros HL Hx Hf. assert (X : In x (filter f l)) by (apply filter_In; auto). destruct (filter f l) as [|y [|z r]]; try discriminate. destruct X as [->|[]]. reflexivity.
Qed.

Theorem cone_ended M d bars : e < M -> rips_barcode p Dist M d bars -> ended_by e M d bars.
Proof.
  intros HM HB. unfold ended_by. destruct d as [|d].
  - destruct (comp_counts p Dist M bars Hp HB) as [HI HC]. pose proof (HC e [a] ltac:(lia) (centre_components e ltac:(lia))) as L1. pose proof (HC (M - 1) [a] ltac:(lia) (centre_components (M - 1) ltac:(lia))) as L2.
    destruct (filter (fun b => M - 1 <? snd b) bars) as [|x l] eqn:E; [discriminate|]. assert (Hx : In x (filter (fun b => M - 1 <? snd b) bars)) by (rewrite E; left; reflexivity).
    apply filter_In in Hx. destruct Hx as [Hx Lx]. apply Z.ltb_lt in Lx. pose proof (HI x Hx) as [X1 X2]. replace (0, M) with x by (rewrite (surjective_pairing x); f_equal; lia).
    apply filter_unique; [exact L1|exact Hx|]. apply Z.ltb_lt. lia.
  - destruct (filter (fun b => e <? snd b) bars) as [|x l] eqn:E; [reflexivity|exfalso]. assert (Hx : In x (filter (fun b => e <? snd b) bars)) by (rewrite E; left; reflexivity).
    apply filter_In in Hx. destruct Hx as [Hx Lx]. apply Z.ltb_lt in Lx. pose proof (proj1 HB x Hx) as I.
    pose proof (cone_none (S d) M bars (Z.max e (fst x)) ltac:(lia) HB ltac:(lia)) as N. unfold count_bars in N. apply length_zero_iff_nil in N.
    assert (Y : In x (filter (spans (Z.max e (fst x)) (Z.max e (fst x))) bars)) by (apply filter_In; split; [exact Hx|unfold spans; apply andb_true_intro; split; [apply Z.leb_le|apply Z.ltb_lt]; lia]). rewrite N in Y. destruct Y.
Qed.
End Cone.

(** ** The computations *)
Theorem distances_local : forall argsort rnd Dist max_r max_dim p, sorts argsort -> square Dist -> (forall u v, (u < v < length Dist)%nat -> 0 <= dist Dist u v) -> 0 < max_r -> prime p ->
  forall Cs Ds out, local_homology argsort rnd Dist max_r max_dim p = Ok (Cs, Ds, out) ->
  forall d, (d < Z.to_nat (Z.max 1 max_dim))%nat -> at_distances Dist max_r (b_bars (nth d (ph_hom out) empty_basis)).
Proof.
  intros until p. intros S Q N M Hp Cs Ds out E d Hd b Hb. refine (rips_ends p Dist max_r d _ b Hp _ Hb). exact (C26_barcode_aux argsort S rnd Dist max_r max_dim p Q N M Hp Cs Ds out E d Hd).
Qed.

Theorem ended_local : forall argsort rnd Dist max_r max_dim p, sorts argsort -> square Dist -> (forall u v, (u < v < length Dist)%nat -> 0 <= dist Dist u v) -> 0 < max_r -> prime p ->
  forall Cs Ds out, local_homology argsort rnd Dist max_r max_dim p = Ok (Cs, Ds, out) -> forall e a, 0 <= e < max_r -> centre Dist e a ->
  forall d, (d < Z.to_nat (Z.max 1 max_dim))%nat -> ended_by e max_r d (b_bars (nth d (ph_hom out) empty_basis)).
Proof.
  intros until p. intros S Q N M Hp Cs Ds out E e a He Ha d Hd. apply (cone_ended p Dist e a); [exact Hp|lia|exact Ha|lia|].
  exact (C26_barcode_aux argsort S rnd Dist max_r max_dim p Q N M Hp Cs Ds out E d Hd).
Qed.

Section Calls.
Variables (argsort : list Z -> list nat) (rnd : Z -> Z) (dim : nat) (pc : list point) (Dist : list (list Z)) (max_r max_dim max_div : Z) (overlap : Q) (p : Z) (S : ss) (P : pages).
Hypothesis C : sound_call argsort rnd dim pc Dist max_r max_dim max_div overlap p.
Let Hp : prime p := cc_prime _ _ _ _ _ _ _ _ _ (sc_cloud _ _ _ _ _ _ _ _ _ _ C).

Theorem ends_zero H0 Hs : create_MV_ss argsort rnd (fun x => x) dim pc Dist max_r max_dim max_div overlap p = Ok (S, P, H0 :: Hs) -> at_distances Dist max_r (b_bars H0).
Proof.
  intros E. destruct (sound_zero _ _ _ _ _ _ _ _ _ _ C _ _ _ E) as (X & X' & EX & B). injection EX as <- <-. intros b Hb. exact (rips_ends p Dist max_r 0 _ b Hp B Hb).
Qed.

Theorem ended_zero H0 Hs : create_MV_ss argsort rnd (fun x => x) dim pc Dist max_r max_dim max_div overlap p = Ok (S, P, H0 :: Hs) ->
  forall e a, 0 <= e < max_r -> centre Dist e a -> ended_by e max_r 0 (b_bars H0).
Proof.
  intros E e a He Ha. destruct (sound_zero _ _ _ _ _ _ _ _ _ _ C _ _ _ E) as (X & X' & EX & B). injection EX as <- <-. apply (cone_ended p Dist e a); [exact Hp|lia|exact Ha|lia|exact B].
Qed.

Theorem ends_simple Hs : simple_cover dim pc Dist max_r max_dim max_div overlap p -> create_MV_ss argsort rnd (fun x => x) dim pc Dist max_r max_dim max_div overlap p = Ok (S, P, Hs) ->
  exists H0 O, Hs = results H0 O /\ length O = (Z.to_nat max_dim - 1)%nat /\
    forall d, (d < Z.to_nat max_dim)%nat -> at_distances Dist max_r (bars_in H0 O d).
Proof.
  intros SC E. destruct (sound_simple _ _ _ _ _ _ _ _ _ _ C _ _ _ E SC) as (H0 & O & EH & L & B). exists H0, O. split; [exact EH|]. split; [exact L|]. intros d Hd b Hb. exact (rips_ends p Dist max_r d _ b Hp (B d Hd) Hb).
Qed.
End Calls.
