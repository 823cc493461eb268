(** * Degree 0 of the Rips filtration counts connected components *)
From Coq Require Import Permutation Znumtheory Sorted.
From Verif Require Import Base ListX SortX Lin Basis_model PH_model Simp_model Spec_Simp Simp_lists Simp_props Spec_PH Spec_Rips Rips_bd Rips_props Spec_Bars Spec_MV Bars Bars_complex Rips_bars Nerve_bd Spec_Comp.
Local Open Scope Z_scope.

Section Graph.
Variables (Dist : list (list Z)) (r : Z).
Let n := length Dist.
Local Notation edge := (edge Dist r).
Local Notation joined := (joined Dist r).

Lemma edge_sym u v : edge u v -> edge v u.
Proof. intros [H|H]; [right|left]; exact H. Qed.
Lemma edge_bound u v : edge u v -> (u < n)%nat /\ (v < n)%nat.
Proof. unfold n. intros [[H _]|[H _]]; lia. Qed.
Lemma joined_trans u v w : joined u v -> joined v w -> joined u w.
Proof. intros H1 H2. induction H2 as [|x y _ IH E]; [exact H1|]. exact (joined_step _ _ _ _ _ IH E). Qed.
Lemma joined_sym u v : joined u v -> joined v u.
Proof.
  intros H. induction H as [|x y _ IH E]; [apply joined_refl|]. apply joined_trans with x; [|exact IH]. exact (joined_step _ _ _ _ _ (joined_refl _ _ _) (edge_sym _ _ E)).
Qed.

Lemma edge_dec u v : {edge u v} + {~ edge u v}.
Proof.
  destruct (lt_dec u v) as [H|H].
  - destruct (Nat.ltb v (length Dist)) eqn:L; [apply Nat.ltb_lt in L|apply Nat.ltb_ge in L]. 
    + destruct (Z_le_gt_dec (dist Dist u v) r) as [K|K]; [left; left; lia|right; intros [X|X]; lia].
    + right. intros [X|X]; lia.
  - destruct (Nat.ltb v u) eqn:Lu; [apply Nat.ltb_lt in Lu|apply Nat.ltb_ge in Lu; right; intros [X|X]; lia].
    destruct (Nat.ltb u (length Dist)) eqn:L; [apply Nat.ltb_lt in L|apply Nat.ltb_ge in L; right; intros [X|X]; lia].
    destruct (Z_le_gt_dec (dist Dist v u) r) as [K|K]; [left; right; lia|right; intros [X|X]; lia].
Qed.

(** A label for each point, the same on each component. *)
Definition label (f : nat -> nat) : Prop := (forall v, joined v (f v)) /\ forall u v, edge u v -> f u = f v.

Lemma label_joined f u v : label f -> joined u v <-> f u = f v.
Proof.
  intros [H1 H2]. split.
  - intros H. induction H as [|x y _ IH E]; [reflexivity|]. rewrite IH. apply H2. exact E.
  - intros E. apply joined_trans with (f u); [apply H1|]. rewrite E. apply joined_sym, H1.
Qed.

Lemma label_exists : exists f, label f.
Proof.
  assert (H : forall E : list (nat * nat), exists f, (forall v, joined v (f v)) /\ forall u v, In (u, v) E -> edge u v -> f u = f v).
  { induction E as [|[a b] E (f & H1 & H2)]; [exists (fun v => v); split; [intros; apply joined_refl|intros ? ? []]|].
    destruct (edge_dec a b) as [Y|N].
    - exists (fun v => if Nat.eqb (f v) (f a) then f b else f v). split.
      + intros v. destruct (Nat.eqb_spec (f v) (f a)) as [Q|Q]; [|apply H1]. apply joined_trans with (f v); [apply H1|]. rewrite Q. apply joined_trans with a; [apply joined_sym, H1|].
        apply joined_trans with b; [exact (joined_step _ _ _ _ _ (joined_refl _ _ _) Y)|apply H1].
      + intros u v [K|K] Euv; [injection K as <- <-; rewrite Nat.eqb_refl; destruct (Nat.eqb_spec (f b) (f a)); reflexivity|]. rewrite (H2 u v K Euv). reflexivity.
    - exists f. split; [exact H1|]. intros u v [K|K] Euv; [injection K as <- <-; contradiction|]. apply (H2 u v K Euv). }
  destruct (H (list_prod (seq 0 n) (seq 0 n))) as (f & H1 & H2). exists f. split; [exact H1|]. intros u v E. apply H2; [|exact E]. apply edge_bound in E. apply in_prod; apply in_seq; lia.
Qed.

Section Label.
Variable f : nat -> nat.
Hypothesis Hf : label f.

Lemma label_idem v : f (f v) = f v.
Proof. symmetry. apply (label_joined f v (f v) Hf). apply Hf. Qed.
Lemma joined_bound u v : joined u v -> (u < n)%nat -> (v < n)%nat.
Proof. intros H Hu. destruct H as [|x y _ E]; [exact Hu|]. apply edge_bound in E. lia. Qed.
Lemma label_bound v : (v < n)%nat -> (f v < n)%nat.
Proof. apply joined_bound. apply Hf. Qed.

Definition roots : list nat := filter (fun v => Nat.eqb (f v) v) (seq 0 n).
Lemma roots_In v : In v roots <-> (v < n)%nat /\ f v = v.
Proof. unfold roots. rewrite filter_In, in_seq, Nat.eqb_eq. intuition lia. Qed.
Lemma roots_NoDup : NoDup roots.
Proof. apply NoDup_filter, seq_NoDup. Qed.

Lemma roots_components : components Dist r roots.
Proof.
  split; [apply roots_NoDup|]. split; [intros v H; apply roots_In in H; apply H|]. split.
  - intros v Hv. exists (f v). split; [apply roots_In; split; [apply label_bound; exact Hv|apply label_idem]|]. apply joined_sym. apply Hf.
  - intros u v Hu Hv H. apply roots_In in Hu, Hv. apply (label_joined f _ _ Hf) in H. destruct Hu as [_ <-]. destruct Hv as [_ <-]. exact H.
Qed.

Lemma components_length l : components Dist r l -> length l = length roots.
Proof.
  intros (N & B & C & I). assert (P : Permutation (map f l) roots); [|rewrite <- (Permutation_length P); symmetry; apply map_length].
  apply NoDup_Permutation; [|apply roots_NoDup|].
  - clear C. induction l as [|x l IH]; [constructor|]. inversion_clear N as [|? ? N1 N2]. cbn [map]. constructor.
    + intros H. apply in_map_iff in H. destruct H as (y & E & Hy). apply N1. rewrite (I x y); [exact Hy|left; reflexivity|right; exact Hy|]. apply (label_joined f _ _ Hf). symmetry. exact E.
    + apply IH; [exact N2|intros v Hv; apply B; right; exact Hv|intros u v Hu Hv; apply I; right; assumption].
  - intros x. split; intros H.
    + apply in_map_iff in H. destruct H as (y & <- & Hy). apply roots_In. split; [apply label_bound, B, Hy|apply label_idem].
    + apply roots_In in H. destruct H as [Hx Ex]. destruct (C x Hx) as (u & Hu & J). apply in_map_iff. exists u. split; [|exact Hu]. apply (label_joined f _ _ Hf) in J. lia.
Qed.
End Label.
End Graph.

Theorem components_exist Dist r : exists l, components Dist r l.
Proof. destruct (label_exists Dist r) as [f Hf]. exists (roots Dist f). apply (roots_components Dist r f Hf). Qed.

(** ** Chains *)
Lemma bd_zero n w v : simplicial_bd n w [v] = Zsum n (fun x => if Nat.ltb x v then w [x; v] else if Nat.ltb v x then - w [v; x] else 0).
Proof.
  unfold simplicial_bd. apply Zsum_ext. intros x _. unfold insert_vertex. cbn [filter app]. destruct (Nat.lt_trichotomy x v) as [H|[->|H]].
  - replace (memn x [v]) with false by (symmetry; apply memn_false; intros [X|[]]; lia). replace (Nat.ltb x v) with true by (symmetry; apply Nat.ltb_lt; lia).
    replace (Nat.ltb v x) with false by (symmetry; apply Nat.ltb_ge; lia). cbn. destruct (w [x; v]); reflexivity.
  - replace (memn v [v]) with true by (symmetry; apply memn_In; left; reflexivity). rewrite Nat.ltb_irrefl. reflexivity.
  - replace (memn x [v]) with false by (symmetry; apply memn_false; intros [X|[]]; lia). replace (Nat.ltb x v) with false by (symmetry; apply Nat.ltb_ge; lia).
    replace (Nat.ltb v x) with true by (symmetry; apply Nat.ltb_lt; lia). cbn [filter app length]. change (Z.of_nat 1) with 1. change ((-1) ^ 1) with (-1). ring.
Qed.

Definition del (u : nat) (s : list nat) : Z := if list_eq_dec Nat.eq_dec [u] s then 1 else 0.
Lemma del_at u v : del u [v] = if Nat.eqb u v then 1 else 0.
Proof. unfold del. destruct (list_eq_dec Nat.eq_dec [u] [v]) as [E|E]; destruct (Nat.eqb_spec u v) as [H|H]; try reflexivity; [injection E as E; contradiction|subst; contradiction]. Qed.
Lemma del_out u s : (forall v, s <> [v]) -> del u s = 0.
Proof. intros H. unfold del. destruct (list_eq_dec Nat.eq_dec [u] s) as [E|E]; [|reflexivity]. elim (H u). symmetry. exact E. Qed.

Section Chains.
Variables (p : Z) (Dist : list (list Z)) (s : Z).
Hypothesis Hp : prime p.
Hypothesis Hs : 0 <= s.
Let n := length Dist.
Let p1 : 1 < p. Proof. destruct Hp. lia. Qed.
Let K d := rips Dist d s.
Local Notation B := (s_bounds p n K 0).
Let SB : subspace p B. Proof. apply s_bounds_sub. exact p1. Qed.
Let iff0 a : cong p a 0 <-> a mod p = 0. Proof. rewrite cong_iff_mod by lia. rewrite Zmod_0_l. reflexivity. Qed.

Lemma vertex_chain u : (u < n)%nat -> forall r, 0 <= r -> rips Dist 0 r [u].
Proof.
  intros H r Hr. split; [|exact Hr]. split; [reflexivity|]. split; [repeat constructor|]. split; [intros v [<-|[]]; exact H|]. intros a b [<-|[]] [<-|[]]; lia.
Qed.

Lemma rips_vertex r t : rips Dist 0 r t -> exists u, t = [u] /\ (u < n)%nat.
Proof.
  intros [(HL & _ & HB & _) _]. destruct t as [|u [|v t]]; try discriminate. exists u. split; [reflexivity|]. apply HB. left. reflexivity.
Qed.

Lemma pair_rips a b : (a < b < n)%nat -> dist Dist a b <= s -> K 1 [a; b].
Proof.
  intros H D. split; [|exact Hs]. split; [reflexivity|]. split; [repeat constructor; lia|]. split; [intros v [<-|[<-|[]]]; lia|].
  intros u v [<-|[<-|[]]] [<-|[<-|[]]] L; lia.
Qed.

Lemma pair_bounds a b : (a < b < n)%nat -> dist Dist a b <= s -> B (fun t => del b t - del a t).
Proof.
  intros H D. split.
  - intros t Ht. destruct (list_eq_dec Nat.eq_dec [b] t) as [<-|Nb]; [apply vertex_chain; [lia|exact Hs]|]. destruct (list_eq_dec Nat.eq_dec [a] t) as [<-|Na]; [apply vertex_chain; [lia|exact Hs]|].
    elim Ht. unfold del. destruct (list_eq_dec _ [b] t); [contradiction|]. destruct (list_eq_dec _ [a] t); [contradiction|]. reflexivity.
  - exists (fun t => if list_eq_dec Nat.eq_dec [a; b] t then 1 else 0). split.
    + intros t Ht. destruct (list_eq_dec _ _ _) as [<-|Ne]; [apply pair_rips; auto|]. elim Ht. reflexivity.
    + intros t _ HL. destruct t as [|v [|? ?]]; try discriminate. rewrite bd_zero, !del_at. f_equal.
      destruct (Nat.eqb_spec b v) as [<-|Nb]; [|destruct (Nat.eqb_spec a v) as [<-|Na]].
      * rewrite (Zsum_single n a); [|lia|].
        -- destruct (Nat.ltb_spec a b); [|lia]. destruct (list_eq_dec _ _ _) as [E|E]; [|contradiction]. destruct (Nat.eqb_spec a b); [lia|reflexivity].
        -- intros x Hx Hne. destruct (Nat.ltb_spec x b); [destruct (list_eq_dec _ _ _) as [E|E]; [injection E as E; lia|reflexivity]|]. destruct (Nat.ltb_spec b x); [|reflexivity]. destruct (list_eq_dec _ _ _) as [E|E]; [injection E as E1 E2; lia|reflexivity].
      * rewrite (Zsum_single n b); [|lia|].
        -- destruct (Nat.ltb_spec b a); [lia|]. destruct (Nat.ltb_spec a b); [|lia]. destruct (list_eq_dec _ _ _) as [E|E]; [|contradiction]. reflexivity.
        -- intros x Hx Hne. destruct (Nat.ltb_spec x a); [destruct (list_eq_dec _ _ _) as [E|E]; [injection E as E1 E2; lia|reflexivity]|]. destruct (Nat.ltb_spec a x); [|reflexivity]. destruct (list_eq_dec _ _ _) as [E|E]; [injection E as E1; lia|reflexivity].
      * apply Zsum_0. intros x Hx. destruct (Nat.ltb_spec x v); [destruct (list_eq_dec _ _ _) as [E|E]; [injection E as E1 E2; congruence|reflexivity]|]. destruct (Nat.ltb_spec v x); [|reflexivity]. destruct (list_eq_dec _ _ _) as [E|E]; [injection E as E1 E2; congruence|reflexivity].
Qed.

Lemma joined_bounds u v : joined Dist s u v -> B (fun t => del u t - del v t).
Proof.
  intros H. induction H as [|x y _ IH E].
  - apply (subs_zero p Hp); [exact SB|]. intros t. apply cong_eq. ring.
  - assert (B (fun t => del x t - del y t)).
    { destruct E as [[H D]|[H D]].
      - refine (sub_ext p _ (fun t => -1 * (del y t - del x t) + 0) _ SB _ _); [intros t; cbv beta; ring|].
        refine (SB 1%nat (fun _ => -1) (fun _ t => del y t - del x t) _ _ _); [intros _ _; apply pair_bounds; auto|]. intros t. cbn [Zsum]. f_equal. ring.
      - apply pair_bounds; auto. }
    refine (sub_ext p _ (fun t => (del u t - del x t) + (del x t - del y t)) _ SB _ _); [intros t; cbv beta; ring|]. apply (sub_add p); auto.
Qed.

Section Label.
Variable f : nat -> nat.
Hypothesis Hf : label Dist s f.
Let R := roots Dist f.

(** The sum of the coefficients on a component. *)
Definition total (a : nat) (c : list nat -> Z) : Z := Zsum n (fun v => if Nat.eqb (f v) a then c [v] else 0).

Lemma total_bounds a c : B c -> cong p (total a c) 0.
Proof.
  intros [_ (w & Hw & E)]. pose (g := fun v x => if Nat.ltb x v then w [x; v] else if Nat.ltb v x then - w [v; x] else 0).
  assert (Eg : forall v, cong p (c [v]) (Zsum n (fun x => g v x))) by (intros v; apply cong_iff_mod; [lia|]; rewrite <- (E [v]) by (try reflexivity; repeat constructor); rewrite bd_zero; reflexivity).
  assert (Z0 : forall v x, ~ edge Dist s v x -> cong p (g v x) 0).
  { intros v x Hne. apply iff0. unfold g. destruct (Nat.ltb_spec x v) as [L|L]; [|destruct (Nat.ltb_spec v x) as [L'|L']; [|apply Zmod_0_l]].
    - destruct (Z.eq_dec (w [x; v] mod p) 0) as [|Hn]; [assumption|]. elim Hne. right. destruct (Hw _ Hn) as [(_ & _ & HB & HA) _]. split; [split; [exact L|apply HB; right; left; reflexivity]|]. apply HA; [left; reflexivity|right; left; reflexivity|exact L].
    - destruct (Z.eq_dec (w [v; x] mod p) 0) as [Hn|Hn]; [apply iff0; rewrite (proj2 (iff0 _) Hn); reflexivity|]. elim Hne. left. destruct (Hw _ Hn) as [(_ & _ & HB & HA) _]. split; [split; [exact L'|apply HB; right; left; reflexivity]|]. apply HA; [left; reflexivity|right; left; reflexivity|exact L']. }
  unfold total. transitivity (Zsum n (fun v => Zsum n (fun x => if Nat.eqb (f v) a && Nat.eqb (f x) a then g v x else 0))).
  - apply Zsum_cong. intros v _. destruct (Nat.eqb_spec (f v) a) as [Ev|Ev]; cbn [andb]; [|rewrite Zsum_0 by reflexivity; reflexivity]. rewrite Eg. apply Zsum_cong. intros x _.
    destruct (edge_dec Dist s v x) as [Ed|Ed]; [rewrite <- (proj2 Hf v x Ed); destruct (Nat.eqb_spec (f v) a); [reflexivity|contradiction]|]. destruct (Nat.eqb (f x) a); [reflexivity|apply (Z0 v x Ed)].
  - apply cong_eq. apply antisym_sum. intros v x. rewrite Bool.andb_comm. destruct (Nat.eqb (f x) a && Nat.eqb (f v) a); [|reflexivity]. unfold g.
    destruct (Nat.ltb_spec x v); destruct (Nat.ltb_spec v x); try lia.
Qed.

Lemma comp_basis r : 0 <= r -> quotient_basis p (s_cycle p n (fun d => rips Dist d r) 0) B (length R) (fun k => del (nth k R 0%nat)) (fun _ => True).
Proof.
  intros Hr. assert (RI : forall k, (k < length R)%nat -> (nth k R 0 < n)%nat /\ f (nth k R 0%nat) = nth k R 0%nat) by (intros k Hk; apply (roots_In Dist f), nth_In, Hk).
  assert (RU : forall k k', (k < length R)%nat -> (k' < length R)%nat -> nth k R 0%nat = nth k' R 0%nat -> k = k') by (intros k k' H H'; apply (proj1 (NoDup_nth R 0%nat) (roots_NoDup Dist f)); auto).
  split; [|split].
  - intros k Hk _. split; [|lia]. intros t Ht. unfold del in Ht. destruct (list_eq_dec _ _ _) as [<-|Hn]; [|elim Ht; apply Zmod_0_l]. apply vertex_chain; [apply RI; exact Hk|exact Hr].
  - intros v [Hv _]. exists (fun k => total (nth k R 0%nat) v). split; [tauto|].
    assert (HB : B (fun t => Zsum n (fun u => v [u] * (del u t - del (f u) t)))) by (apply (sub_lc p); [exact SB|]; intros u Hu; right; apply joined_bounds; apply Hf).
    refine (subs_cong p Hp _ _ _ SB _ HB). intros t. cbv beta.
    rewrite (Zsum_ext n _ (fun u => v [u] * del u t - v [u] * del (f u) t)) by (intros; ring). rewrite Zsum_sub. apply cong_sub.
    + destruct (Z.eq_dec (v t mod p) 0) as [H0|H0].
      * transitivity 0; [|symmetry; apply iff0; exact H0]. apply Zsum_cong0. intros u _. unfold del. destruct (list_eq_dec _ _ _) as [<-|]; [rewrite (proj2 (iff0 _) H0); reflexivity|apply cong_eq; ring].
      * destruct (rips_vertex _ _ (Hv _ H0)) as (u & -> & Hu). rewrite (Zsum_single n u); [rewrite del_at, Nat.eqb_refl; apply cong_eq; ring|exact Hu|]. intros x _ Hne. rewrite del_at. destruct (Nat.eqb_spec x u); [contradiction|ring].
    + apply cong_eq. unfold total. rewrite (Zsum_ext (length R) (fun k => _ * del _ t) (fun k => Zsum n (fun u => (if Nat.eqb (f u) (nth k R 0%nat) then v [u] else 0) * del (nth k R 0%nat) t))) by (intros; rewrite <- Zsum_scale_r; reflexivity).
      rewrite Zsum_swap. apply Zsum_ext. intros u Hu. assert (X : In (f u) R) by (apply roots_In; split; [apply (label_bound Dist s f Hf); exact Hu|apply (label_idem Dist s f Hf)]).
      apply (In_nth _ _ 0%nat) in X. destruct X as (k & Hk & Ek). rewrite (Zsum_single _ k); [rewrite Ek, Nat.eqb_refl; reflexivity|exact Hk|]. intros k' Hk' Hne. destruct (Nat.eqb_spec (f u) (nth k' R 0%nat)) as [E|E]; [|ring]. elim Hne. apply RU; auto. congruence.
  - intros c _ Hc k Hk. apply iff0. pose proof (total_bounds (nth k R 0%nat) _ Hc) as T. rewrite <- T. clear T. unfold total. apply cong_eq. symmetry.
    destruct (RI k Hk) as [Hb Hr']. rewrite (Zsum_ext n _ (fun v => Zsum (length R) (fun j => (if Nat.eqb (f v) (nth k R 0%nat) then c j * del (nth j R 0%nat) [v] else 0)))).
    2:{ intros v _. destruct (Nat.eqb (f v) (nth k R 0%nat)); [reflexivity|symmetry; apply Zsum_0; reflexivity]. }
    rewrite Zsum_swap. rewrite (Zsum_single _ k); [|exact Hk|].
    + rewrite (Zsum_single n (nth k R 0%nat)); [rewrite Hr', Nat.eqb_refl, del_at, Nat.eqb_refl; ring|exact Hb|]. intros v _ Hne. destruct (Nat.eqb (f v) _); [|reflexivity]. rewrite del_at. destruct (Nat.eqb_spec (nth k R 0%nat) v); [congruence|ring].
    + intros j Hj Hne. apply Zsum_0. intros v _. destruct (Nat.eqb_spec (f v) (nth k R 0%nat)) as [E|E]; [|reflexivity]. rewrite del_at. destruct (Nat.eqb_spec (nth j R 0%nat) v) as [E'|E']; [|ring]. elim Hne. apply RU; auto. destruct (RI j Hj) as [_ X]. congruence.
Qed.
End Label.
End Chains.

(** ** Bars *)
Theorem comp_count p Dist M bars r s l : prime p -> rips_barcode p Dist M 0 bars -> 0 <= r <= s -> s < M -> components Dist s l -> count_bars (spans r s) bars = length l.
Proof.
  intros Hp [_ HB] Hrs HM HC. destruct (HB r s ltac:(lia)) as [g Hg]. destruct (label_exists Dist s) as [f Hf]. rewrite (components_length Dist s f Hf l HC).
  refine (quotient_dim p Hp _ _ _ _ _ _ _ Hg (comp_basis p Dist s Hp ltac:(lia) f Hf r ltac:(lia))). apply s_bounds_sub. destruct Hp. lia.
Qed.

Lemma comp_before p Dist M bars r s : prime p -> rips_barcode p Dist M 0 bars -> r < 0 -> r <= s < M -> count_bars (spans r s) bars = 0%nat.
Proof.
  intros Hp [_ HB] Hr HM. destruct (HB r s ltac:(lia)) as [g Hg]. assert (p1 : 1 < p) by (destruct Hp; lia).
  assert (SB : subspace p (s_bounds p (length Dist) (fun d => rips Dist d s) 0)) by (apply s_bounds_sub; exact p1).
  refine (quotient_dim p Hp _ _ _ _ _ (fun _ _ => 0) SB Hg _). split; [intros; lia|]. split; [|intros; lia]. intros v [Hv _]. exists (fun _ => 0). split; [reflexivity|].
  apply (subs_zero p Hp); [exact SB|]. intros t. cbn [Zsum]. rewrite Z.sub_0_r. apply cong_iff_mod; [lia|]. rewrite Zmod_0_l. destruct (Z.eq_dec (v t mod p) 0) as [|Hn]; [assumption|]. destruct (Hv _ Hn) as [_ X]. lia.
Qed.

(** All bars are born at 0. *)
Theorem comp_born p Dist M bars x : prime p -> rips_barcode p Dist M 0 bars -> In x bars -> fst x = 0.
Proof.
  intros Hp HB Hx. pose proof HB as [HI _]. pose proof (HI x Hx) as Bx. destruct (Z_lt_ge_dec (fst x) 0) as [L|L].
  - pose proof (comp_before p Dist M bars (fst x) (fst x) Hp HB L ltac:(lia)) as E. exfalso. unfold count_bars in E. apply length_zero_iff_nil in E.
    assert (X : In x (filter (spans (fst x) (fst x)) bars)) by (apply filter_In; split; [exact Hx|unfold spans; apply andb_true_intro; split; [apply Z.leb_refl|apply Z.ltb_lt; lia]]). rewrite E in X. destruct X.
  - destruct (Z.eq_dec (fst x) 0) as [|Hne]; [assumption|exfalso]. destruct (components_exist Dist (fst x)) as [l Hl].
    pose proof (comp_count p Dist M bars 0 (fst x) l Hp HB ltac:(lia) ltac:(lia) Hl) as E0. pose proof (comp_count p Dist M bars (fst x) (fst x) l Hp HB ltac:(lia) ltac:(lia) Hl) as E1.
    assert (X : forall bs, In x bs -> (count_bars (spans 0 (fst x)) bs < count_bars (spans (fst x) (fst x)) bs)%nat); [|specialize (X bars Hx); lia].
    assert (LE : forall bs, (count_bars (spans 0 (fst x)) bs <= count_bars (spans (fst x) (fst x)) bs)%nat).
    { unfold count_bars. induction bs as [|b bs IH]; [constructor|]. cbn [filter]. destruct (spans 0 (fst x) b) eqn:E; [|destruct (spans (fst x) (fst x) b); cbn [length]; lia].
      replace (spans (fst x) (fst x) b) with true; [cbn [length]; lia|]. unfold spans in *. apply andb_prop in E. destruct E as [A C]. rewrite C. apply Z.leb_le in A. symmetry. rewrite Bool.andb_true_r. apply Z.leb_le. lia. }
    induction bs as [|b bs IH]; [intros []|]. intros [->|H].
    + unfold count_bars. cbn [filter]. replace (spans 0 (fst x) x) with false by (symmetry; unfold spans; apply Bool.andb_false_intro1; apply Z.leb_gt; lia).
      replace (spans (fst x) (fst x) x) with true by (symmetry; unfold spans; apply andb_true_intro; split; [apply Z.leb_refl|apply Z.ltb_lt; lia]). cbn [length]. specialize (LE bs). unfold count_bars in LE. lia.
    + specialize (IH H). unfold count_bars in *. cbn [filter]. destruct (spans 0 (fst x) b) eqn:E; [|destruct (spans (fst x) (fst x) b); cbn [length]; lia].
      replace (spans (fst x) (fst x) b) with true; [cbn [length]; lia|]. unfold spans in *. apply andb_prop in E. destruct E as [A C]. rewrite C. apply Z.leb_le in A. symmetry. rewrite Bool.andb_true_r. apply Z.leb_le. lia.
Qed.

(** Degree 0 is the same over every field. *)
Theorem comp_field p q Dist M bars bars' : prime p -> prime q -> rips_barcode p Dist M 0 bars -> rips_barcode q Dist M 0 bars' -> Permutation bars bars'.
Proof.
  intros Hp Hq HB HB'. apply (bars_perm M); [apply HB|apply HB'|]. intros r s Hrs. destruct (Z_lt_ge_dec r 0) as [L|L].
  - rewrite (comp_before p Dist M bars r s Hp HB L Hrs), (comp_before q Dist M bars' r s Hq HB' L Hrs). reflexivity.
  - destruct (components_exist Dist s) as [l Hl]. rewrite (comp_count p Dist M bars r s l Hp HB ltac:(lia) ltac:(lia) Hl), (comp_count q Dist M bars' r s l Hq HB' ltac:(lia) ltac:(lia) Hl). reflexivity.
Qed.
