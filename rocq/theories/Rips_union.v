(** * The Rips filtration of two clouds which are far from each other *)
From Coq Require Import Permutation Znumtheory Sorted.
From Verif Require Import Base ListX Lin PH_lin IK_lin Spec_Simp Spec_PH Spec_Rips Rips_props Spec_Bars Spec_MV Bars Rips_bd Rips_bars Nerve_bd Rips_order Rips_dup Stable_lin Stable_bottle Spec_Union.
Local Open Scope Z_scope.

(** ** Sums of quotients *)
Section Sum.
Variables (X X1 X2 : Type) (p : Z).
Hypothesis Hp : prime p.
Variables (Zs Bs : (X -> Z) -> Prop) (Z1 B1 : (X1 -> Z) -> Prop) (Z2 B2 : (X2 -> Z) -> Prop).
Variables (i1 : (X1 -> Z) -> X -> Z) (i2 : (X2 -> Z) -> X -> Z) (o1 : (X -> Z) -> X1 -> Z) (o2 : (X -> Z) -> X2 -> Z).
Definition linear {A B} (f : (A -> Z) -> B -> Z) : Prop := forall n (c : nat -> Z) b y, f (fun x => Zsum n (fun k => c k * b k x)) y = Zsum n (fun k => c k * f (b k) y).
Definition affine {A B} (f : (A -> Z) -> B -> Z) : Prop := forall n (c : nat -> Z) b v y, f (fun x => v x - Zsum n (fun k => c k * b k x)) y = f v y - Zsum n (fun k => c k * f (b k) y).
Hypothesis A1 : affine i1.
Hypothesis A2 : affine i2.
Hypothesis L1 : linear o1.
Hypothesis L2 : linear o2.
Hypothesis SB : subspace p Bs.
Hypothesis SB1 : subspace p B1.
Hypothesis SB2 : subspace p B2.
Hypothesis ZI1 : forall v, Z1 v -> Zs (i1 v).
Hypothesis ZI2 : forall v, Z2 v -> Zs (i2 v).
Hypothesis ZO1 : forall v, Zs v -> Z1 (o1 v).
Hypothesis ZO2 : forall v, Zs v -> Z2 (o2 v).
Hypothesis BI1 : forall v, B1 v -> Bs (i1 v).
Hypothesis BI2 : forall v, B2 v -> Bs (i2 v).
Hypothesis BO1 : forall v, Bs v -> B1 (o1 v).
Hypothesis BO2 : forall v, Bs v -> B2 (o2 v).
Hypothesis OI1 : forall v x, Z1 v -> cong p (o1 (i1 v) x) (v x).
Hypothesis OI2 : forall v x, Z2 v -> cong p (o2 (i2 v) x) (v x).
Hypothesis OZ1 : forall v x, Z2 v -> cong p (o1 (i2 v) x) 0.
Hypothesis OZ2 : forall v x, Z1 v -> cong p (o2 (i1 v) x) 0.
Hypothesis IO : forall v x, Zs v -> cong p (v x) (i1 (o1 v) x + i2 (o2 v) x).

Lemma sum_basis n1 g1 n2 g2 : quotient_basis p Z1 B1 n1 g1 (fun _ => True) -> quotient_basis p Z2 B2 n2 g2 (fun _ => True) ->
  quotient_basis p Zs Bs (n1 + n2) (cat n1 (fun k => i1 (g1 k)) (fun k => i2 (g2 k))) (fun _ => True).
Proof.
  intros (G1 & G2 & G3) (H1 & H2 & H3). split; [|split].
  - intros k Hk _. unfold cat. destruct (Nat.ltb_spec k n1); [apply ZI1, G1; [lia|exact I]|apply ZI2, H1; [lia|exact I]].
  - intros v Hv. destruct (G2 (o1 v) (ZO1 v Hv)) as (c1 & _ & E1). destruct (H2 (o2 v) (ZO2 v Hv)) as (c2 & _ & E2).
    exists (cat n1 c1 c2). split; [intros k N; exfalso; apply N; exact I|]. apply BI1 in E1. apply BI2 in E2.
    apply (SB 2%nat (fun _ => 1) (fun k => match k with O => i1 (fun i => o1 v i - Zsum n1 (fun k => c1 k * g1 k i)) | _ => i2 (fun i => o2 v i - Zsum n2 (fun k => c2 k * g2 k i)) end)).
    + intros [|k] Hk; assumption.
    + intros x. apply (PH_lin.mod_cong p Hp). rewrite cat_sum. cbn [Zsum]. rewrite A1, A2.
      rewrite (Zsum_ext n1 (fun k => cat n1 c1 c2 k * i1 (g1 k) x) (fun k => c1 k * i1 (g1 k) x)) by (intros k Hk; unfold cat; destruct (Nat.ltb_spec k n1); [reflexivity|lia]).
      rewrite (Zsum_ext n2 (fun k => cat n1 c1 c2 (n1 + k)%nat * i2 (g2 k) x) (fun k => c2 k * i2 (g2 k) x)) by (intros k Hk; unfold cat; destruct (Nat.ltb_spec (n1 + k) n1); [lia|]; replace (n1 + k - n1)%nat with k by lia; reflexivity).
      pose proof (IO v x Hv) as C. unfold cong in *. match goal with |- (p | ?a) => replace a with (v x - (i1 (o1 v) x + i2 (o2 v) x)) by ring end. exact C.
  - intros c _ HB. assert (C1 : forall k, (k < n1)%nat -> c k mod p = 0).
    { apply (G3 c); [intros k N; exfalso; apply N; exact I|]. apply (SB1 1%nat (fun _ => 1) (fun _ => o1 (fun i => Zsum (n1 + n2) (fun k => c k * cat n1 (fun k => i1 (g1 k)) (fun k => i2 (g2 k)) k i)))); [intros; apply BO1; exact HB|].
      intros x. apply (PH_lin.mod_cong p Hp). cbn [Zsum]. rewrite L1. rewrite Zsum_app. unfold cat.
      apply (cong_trans p _ (Zsum n1 (fun k => c k * g1 k x) + 0)); [apply cong_eq; ring|]. apply cong_sym. match goal with |- cong p ?a _ => replace a with (Zsum n1 (fun k => c k * o1 (if Nat.ltb k n1 then i1 (g1 k) else i2 (g2 (k - n1)%nat)) x) + Zsum n2 (fun k => c (n1 + k)%nat * o1 (if Nat.ltb (n1 + k) n1 then i1 (g1 (n1 + k)%nat) else i2 (g2 (n1 + k - n1)%nat)) x)) by ring end.
      apply cong_add.
      - apply Zsum_cong. intros k Hk. destruct (Nat.ltb_spec k n1); [|lia]. apply cong_mul; [apply cong_refl|apply OI1, G1; [exact Hk|exact I]].
      - apply Zsum_cong0. intros k Hk. destruct (Nat.ltb_spec (n1 + k) n1); [lia|]. replace (n1 + k - n1)%nat with k by lia. apply (cong_trans p _ (c (n1 + k)%nat * 0)); [|apply cong_eq; ring]. apply cong_mul; [apply cong_refl|apply OZ1, H1; [exact Hk|exact I]]. }
    assert (C2 : forall k, (k < n2)%nat -> c (n1 + k)%nat mod p = 0).
    { apply (H3 (fun k => c (n1 + k)%nat)); [intros k N; exfalso; apply N; exact I|]. apply (SB2 1%nat (fun _ => 1) (fun _ => o2 (fun i => Zsum (n1 + n2) (fun k => c k * cat n1 (fun k => i1 (g1 k)) (fun k => i2 (g2 k)) k i)))); [intros; apply BO2; exact HB|].
      intros x. apply (PH_lin.mod_cong p Hp). cbn [Zsum]. rewrite L2. rewrite Zsum_app. unfold cat.
      apply (cong_trans p _ (0 + Zsum n2 (fun k => c (n1 + k)%nat * g2 k x))); [apply cong_eq; ring|]. apply cong_sym. match goal with |- cong p ?a _ => replace a with (Zsum n1 (fun k => c k * o2 (if Nat.ltb k n1 then i1 (g1 k) else i2 (g2 (k - n1)%nat)) x) + Zsum n2 (fun k => c (n1 + k)%nat * o2 (if Nat.ltb (n1 + k) n1 then i1 (g1 (n1 + k)%nat) else i2 (g2 (n1 + k - n1)%nat)) x)) by ring end.
      apply cong_add.
      - apply Zsum_cong0. intros k Hk. destruct (Nat.ltb_spec k n1); [|lia]. apply (cong_trans p _ (c k * 0)); [|apply cong_eq; ring]. apply cong_mul; [apply cong_refl|apply OZ2, G1; [exact Hk|exact I]].
      - apply Zsum_cong. intros k Hk. destruct (Nat.ltb_spec (n1 + k) n1); [lia|]. replace (n1 + k - n1)%nat with k by lia. apply cong_mul; [apply cong_refl|apply OI2, H1; [exact Hk|exact I]]. }
    intros k Hk. destruct (le_lt_dec n1 k) as [G|G]; [|apply C1; exact G]. replace k with (n1 + (k - n1))%nat by lia. apply C2. lia.
Qed.
End Sum.

(** ** Restricting and moving chains *)
Definition pb {A B} (T : B -> bool) (f : B -> A) (u : A -> Z) (y : B) : Z := if T y then u (f y) else 0.
Lemma pb_linear {A B} T (f : B -> A) : linear (pb T f).
Proof. intros n c b y. unfold pb. destruct (T y); [reflexivity|]. symmetry. rewrite (Zsum_ext n _ (fun _ => 0)) by (intros; ring). induction n; cbn; lia. Qed.
Lemma pb_affine {A B} T (f : B -> A) : affine (pb T f).
Proof. intros n c b v y. unfold pb. destruct (T y); [reflexivity|]. rewrite (Zsum_ext n _ (fun _ => 0)) by (intros; ring). assert (E : Zsum n (fun _ => 0) = 0) by (clear; induction n; cbn; lia). lia. Qed.

Section Parts.
Variables (p : Z) (a b : nat).
Hypothesis Hp : prime p.
Definition lowb (s : list nat) : bool := forallb (fun v => Nat.ltb v a) s.
Definition highb (s : list nat) : bool := forallb (fun v => Nat.leb a v) s.
Definition up (s : list nat) : list nat := map (fun v => (a + v)%nat) s.
Definition dn (s : list nat) : list nat := map (fun v => (v - a)%nat) s.

Lemma low_in s : lowb s = true <-> forall v, In v s -> (v < a)%nat.
Proof. unfold lowb. rewrite forallb_forall. split; intros H v Hv; apply Nat.ltb_lt, H, Hv. Qed.
Lemma high_in s : highb s = true <-> forall v, In v s -> (a <= v)%nat.
Proof. unfold highb. rewrite forallb_forall. split; intros H v Hv; apply Nat.leb_le, H, Hv. Qed.
Lemma forallb_insert P v t : ~ In v t -> forallb P (insert_vertex v t) = P v && forallb P t.
Proof.
  intros H. apply eq_true_iff_eq. rewrite andb_true_iff, !forallb_forall. split.
  - intros G. split; [apply G, insert_In; auto|]. intros x Hx. apply G, insert_In; auto.
  - intros [G1 G2] x Hx. apply insert_In in Hx; [|exact H]. destruct Hx as [->|Hx]; auto.
Qed.
Lemma dn_up s : dn (up s) = s.
Proof. unfold dn, up. rewrite map_map. rewrite (map_ext _ (fun v => v)) by (intros; lia). apply map_id. Qed.
Lemma up_dn s : highb s = true -> up (dn s) = s.
Proof. intros H. pose proof (proj1 (high_in s) H) as G. unfold dn, up. rewrite map_map. rewrite (map_ext_in _ (fun v => v)); [apply map_id|]. intros v Hv. specialize (G v Hv). lia. Qed.
Lemma up_high s : highb (up s) = true.
Proof. apply high_in. intros v Hv. apply in_map_iff in Hv. destruct Hv as (w & <- & _). lia. Qed.
Lemma up_increasing s : increasing s -> increasing (up s).
Proof. intros H. induction H as [|x s H IH F]; constructor; [exact IH|]. apply Forall_forall. intros y Hy. apply in_map_iff in Hy. destruct Hy as (w & <- & Hw). rewrite Forall_forall in F. specialize (F w Hw). lia. Qed.
Lemma dn_increasing s : highb s = true -> increasing s -> increasing (dn s).
Proof.
  intros G H. pose proof (proj1 (high_in s) G) as K. clear G. induction H as [|x s H IH F]; constructor; [apply IH; intros v Hv; apply K; right; exact Hv|]. apply Forall_forall. intros y Hy. apply in_map_iff in Hy. destruct Hy as (w & <- & Hw). rewrite Forall_forall in F. specialize (F w Hw).
  pose proof (K x (or_introl eq_refl)). pose proof (K w (or_intror Hw)). lia.
Qed.
Lemma memn_up w t : memn (a + w) (up t) = memn w t.
Proof. unfold memn, up. induction t as [|x t IH]; [reflexivity|]. cbn [map existsb]. rewrite IH. f_equal. destruct (Nat.eqb_spec (a + w) (a + x)), (Nat.eqb_spec w x); lia. Qed.
Lemma filter_up (P Q : nat -> bool) t : (forall x, P (a + x)%nat = Q x) -> filter P (up t) = up (filter Q t).
Proof. intros H. unfold up. induction t as [|x t IH]; [reflexivity|]. cbn [map filter]. rewrite H, IH. destruct (Q x); reflexivity. Qed.
Lemma sgn_up w t : sgn (a + w) (up t) = sgn w t.
Proof. unfold sgn. rewrite (filter_up _ (fun u => Nat.ltb u w)); [unfold up; rewrite map_length; reflexivity|]. intros x. destruct (Nat.ltb_spec (a + x) (a + w)), (Nat.ltb_spec x w); lia. Qed.
Lemma insert_up w t : insert_vertex (a + w) (up t) = up (insert_vertex w t).
Proof.
  unfold insert_vertex. rewrite (filter_up (fun u => Nat.ltb u (a + w)) (fun u => Nat.ltb u w)), (filter_up (fun u => Nat.ltb (a + w) u) (fun u => Nat.ltb w u)).
  - unfold up. rewrite map_app. reflexivity.
  - intros x. destruct (Nat.ltb_spec (a + w) (a + x)), (Nat.ltb_spec w x); lia.
  - intros x. destruct (Nat.ltb_spec (a + x) (a + w)), (Nat.ltb_spec x w); lia.
Qed.

(** The four boundaries. *)
Definition mixes (u : list nat -> Z) : Prop := forall s, lowb s = false -> highb s = false -> cong p (u s) 0.
Let n := (a + b)%nat.
Lemma mem_bound v t : (forall x, In x t -> (x < a)%nat) -> (a <= v)%nat -> ~ In v t.
Proof. intros H L I. specialize (H v I). lia. Qed.
Lemma not_high x t : In x t -> (x < a)%nat -> highb t = false.
Proof. intros I L. destruct (highb t) eqn:E; [|reflexivity]. apply high_in with (v := x) in E; [lia|exact I]. Qed.
Lemma not_low x t : In x t -> (a <= x)%nat -> lowb t = false.
Proof. intros I L. destruct (lowb t) eqn:E; [|reflexivity]. apply low_in with (v := x) in E; [lia|exact I]. Qed.

Lemma bd_o1 u t : mixes u -> t <> [] -> cong p (simplicial_bd a (pb lowb (fun s => s) u) t) (pb lowb (fun s => s) (simplicial_bd n u) t).
Proof.
  intros HM Ht. unfold pb at 2. rewrite !bd_sgn. destruct (lowb t) eqn:E.
  - unfold n. rewrite Zsum_app. apply (cong_trans p _ (Zsum a (fun v => if memn v t then 0 else sgn v t * u (insert_vertex v t)) + 0)).
    + apply cong_eq. rewrite Z.add_0_r. apply Zsum_ext. intros v Hv. destruct (memn v t) eqn:F; [reflexivity|]. unfold pb, lowb. rewrite forallb_insert by (apply memn_false; exact F). fold (lowb t). rewrite E. destruct (Nat.ltb_spec v a); [reflexivity|lia].
    + apply cong_add; [apply cong_refl|]. apply cong_sym, Zsum_cong0. intros k Hk. destruct (memn (a + k) t) eqn:F; [apply cong_refl|]. apply (cong_trans p _ (sgn (a + k) t * 0)); [|apply cong_eq; ring]. apply cong_mul; [apply cong_refl|]. apply memn_false in F. apply HM.
      * apply (not_low (a + k)); [apply insert_In; auto|lia].
      * destruct t as [|x t]; [congruence|]. apply (not_high x); [apply insert_In; [exact F|right; left; reflexivity]|]. apply (proj1 (low_in _) E). left. reflexivity.
  - apply Zsum_cong0. intros v Hv. destruct (memn v t) eqn:F; [apply cong_refl|]. unfold pb, lowb. rewrite forallb_insert by (apply memn_false; exact F). fold (lowb t). rewrite E, andb_false_r. apply cong_eq. ring.
Qed.
Lemma bd_i1 u t : simplicial_bd n (pb lowb (fun s => s) u) t = pb lowb (fun s => s) (simplicial_bd a u) t.
Proof.
  unfold pb at 2. rewrite !bd_sgn. unfold n. rewrite Zsum_app.
  assert (Z0 : forall m f, (forall k, (k < m)%nat -> f k = 0) -> Zsum m f = 0) by (intros m f H; rewrite (Zsum_ext m f (fun _ => 0) H); clear; induction m; cbn; lia).
  rewrite (Z0 b). 2: { intros k Hk. destruct (memn (a + k) t) eqn:F; [reflexivity|]. unfold pb. rewrite (not_low (a + k)%nat); [ring| |lia]. apply insert_In; [apply memn_false; exact F|auto]. }
  rewrite Z.add_0_r. destruct (lowb t) eqn:E.
  - apply Zsum_ext. intros v Hv. destruct (memn v t) eqn:F; [reflexivity|]. unfold pb, lowb. rewrite forallb_insert by (apply memn_false; exact F). fold (lowb t). rewrite E. destruct (Nat.ltb_spec v a); [reflexivity|lia].
  - apply Z0. intros v Hv. destruct (memn v t) eqn:F; [reflexivity|]. unfold pb, lowb. rewrite forallb_insert by (apply memn_false; exact F). fold (lowb t). rewrite E, andb_false_r. ring.
Qed.
Lemma bd_o2 u t : mixes u -> t <> [] -> cong p (simplicial_bd b (pb (fun _ => true) up u) t) (pb (fun _ => true) up (simplicial_bd n u) t).
Proof.
  intros HM Ht. unfold pb. rewrite !bd_sgn. unfold n. rewrite Zsum_app.
  apply (cong_trans p _ (0 + Zsum b (fun w => if memn w t then 0 else sgn w t * u (up (insert_vertex w t))))); [apply cong_eq; ring|]. apply cong_add.
  - apply cong_sym, Zsum_cong0. intros v Hv. destruct (memn v (up t)) eqn:F; [apply cong_refl|]. apply (cong_trans p _ (sgn v (up t) * 0)); [|apply cong_eq; ring]. apply cong_mul; [apply cong_refl|]. apply memn_false in F. apply HM.
    + destruct t as [|x t]; [congruence|]. apply (not_low (a + x)); [apply insert_In; [exact F|right; left; reflexivity]|lia].
    + apply (not_high v); [apply insert_In; auto|exact Hv].
  - apply cong_eq. apply Zsum_ext. intros w Hw. rewrite memn_up, sgn_up, insert_up. reflexivity.
Qed.
Lemma bd_i2 u t : simplicial_bd n (pb highb dn u) t = pb highb dn (simplicial_bd b u) t.
Proof.
  unfold pb at 2. rewrite !bd_sgn. unfold n. rewrite Zsum_app.
  assert (Z0 : forall m f, (forall k, (k < m)%nat -> f k = 0) -> Zsum m f = 0) by (intros m f H; rewrite (Zsum_ext m f (fun _ => 0) H); clear; induction m; cbn; lia).
  rewrite (Z0 a). 2: { intros v Hv. destruct (memn v t) eqn:F; [reflexivity|]. unfold pb. rewrite (not_high v); [ring| |exact Hv]. apply insert_In; [apply memn_false; exact F|auto]. }
  rewrite Z.add_0_l. destruct (highb t) eqn:E.
  - apply Zsum_ext. intros w Hw. pose proof (up_dn t E) as U. revert U. generalize (dn t). intros q <-. rewrite memn_up, sgn_up, insert_up. destruct (memn w q); [reflexivity|]. unfold pb. rewrite up_high, dn_up. reflexivity.
  - apply Z0. intros w Hw. destruct (memn (a + w) t) eqn:F; [reflexivity|]. unfold pb, highb. rewrite forallb_insert by (apply memn_false; exact F). fold (highb t). rewrite E, andb_false_r. ring.
Qed.

(** Cycles and boundaries. *)
Lemma pb_move N N' (T : list nat -> bool) (f : list nat -> list nat) (K K' : nat -> list nat -> Prop) :
  (forall e s, T s = true -> K e (f s) -> K' e s) -> (forall s, T s = true -> increasing s -> increasing (f s)) -> (forall s, length (f s) = length s) ->
  (forall e u t, s_chain p K e u -> t <> [] -> cong p (simplicial_bd N' (pb T f u) t) (pb T f (simplicial_bd N u) t)) ->
  forall d u, (s_cycle p N K d u -> s_cycle p N' K' d (pb T f u)) /\ (s_bounds p N K d u -> s_bounds p N' K' d (pb T f u)).
Proof.
  intros HK HI HL HB d u.
  assert (C : forall e w, s_chain p K e w -> s_chain p K' e (pb T f w)).
  { intros e w Hw s Hs. unfold pb in Hs. destruct (T s) eqn:E; [|rewrite Zmod_0_l in Hs; congruence]. apply HK; [exact E|]. apply Hw. exact Hs. }
  split.
  - intros [H1 H2]. split; [apply C; exact H1|]. intros Hd t It Lt. apply (PH_lin.mod_cong0 p Hp). apply (cong_trans p _ (pb T f (simplicial_bd N u) t)); [apply (HB d); [exact H1|destruct t; [cbn in Lt; lia|congruence]]|].
    unfold pb. destruct (T t) eqn:E; [|apply cong_refl]. apply (PH_lin.mod_cong0 p Hp). apply H2; [exact Hd|apply HI; assumption|rewrite HL; exact Lt].
  - intros [H1 (w & W1 & W2)]. split; [apply C; exact H1|]. exists (pb T f w). split; [apply C; exact W1|]. intros t It Lt. apply (PH_lin.mod_cong p Hp).
    apply (cong_trans p _ (pb T f (simplicial_bd N w) t)); [apply (HB (S d)); [exact W1|destruct t; [cbn in Lt; lia|congruence]]|].
    unfold pb. destruct (T t) eqn:E; [|apply cong_refl]. apply (PH_lin.mod_cong p Hp). apply W2; [apply HI; assumption|rewrite HL; exact Lt].
Qed.
End Parts.

(** ** Rips filtrations *)
Section Far.
Variables (p M : Z) (Dist D1 D2 : list (list Z)).
Hypothesis Hp : prime p.
Hypothesis HF : far_parts M Dist D1 D2.
Let a := length D1.
Let b := length D2.

Lemma chain_zero (K : nat -> list nat -> Prop) d v s : s_chain p K d v -> ~ K d s -> cong p (v s) 0.
Proof. intros H N. apply (PH_lin.mod_cong0 p Hp). destruct (Z.eq_dec (v s mod p) 0) as [E|E]; [exact E|]. exfalso. apply N, H, E. Qed.
Lemma rips_nonempty D d r : ~ rips D d r [].
Proof. intros [(L & _) _]. discriminate. Qed.

Lemma parts_mix d r s : r < M -> rips Dist d r s -> lowb a s = true \/ highb a s = true.
Proof.
  intros Hr [(_ & _ & B & C) _]. destruct (lowb a s) eqn:E; [auto|]. right. apply high_in. intros x Hx. destruct (le_lt_dec a x) as [|Lx]; [assumption|exfalso].
  assert (Y : exists y, In y s /\ (a <= y)%nat).
  { clear -E. unfold lowb in E. induction s as [|y s IH]; [discriminate|]. cbn [forallb] in E. destruct (Nat.ltb_spec y a) as [L|L]; [destruct (IH E) as (z & I & G); exists z; split; [right; exact I|exact G]|exists y; split; [left; reflexivity|exact L]]. }
  destruct Y as (y & Hy & Ly). specialize (C x y Hx Hy ltac:(lia)). specialize (B y Hy). rewrite (fp_length _ _ _ _ HF) in B. pose proof (fp_far _ _ _ _ HF x (y - a)%nat Lx ltac:(unfold a; lia)) as F. fold a in F. replace (a + (y - a))%nat with y in F by lia. lia.
Qed.
Lemma chain_mixes d r u : r < M -> s_chain p (fun e => rips Dist e r) d u -> mixes p a u.
Proof. intros Hr H s E1 E2. apply (chain_zero _ d u s H). intros R. apply parts_mix in R; [|exact Hr]. rewrite E1, E2 in R. destruct R; discriminate. Qed.

Lemma rips_o1 e r s : lowb a s = true -> rips Dist e r s -> rips D1 e r s.
Proof.
  intros E [(A & B & _ & D) R]. pose proof (proj1 (low_in a s) E) as H. split; [|exact R]. split; [exact A|]. split; [exact B|]. split; [exact H|]. intros u v Hu Hv L. rewrite <- (fp_first _ _ _ _ HF u v ltac:(specialize (H v Hv); unfold a in H; lia)). apply D; assumption.
Qed.
Lemma rips_i1 e r s : rips D1 e r s -> rips Dist e r s.
Proof.
  intros [(A & B & C & D) R]. split; [|exact R]. split; [exact A|]. split; [exact B|]. split; [intros v Hv; specialize (C v Hv); rewrite (fp_length _ _ _ _ HF); lia|]. intros u v Hu Hv L. rewrite (fp_first _ _ _ _ HF u v ltac:(specialize (C v Hv); lia)). apply D; assumption.
Qed.
Lemma rips_o2 e r s : rips Dist e r (up a s) -> rips D2 e r s.
Proof.
  intros [(A & B & C & D) R]. assert (C' : forall v, In v s -> (v < length D2)%nat).
  { intros v Hv. specialize (C (a + v)%nat (in_map (fun v => (a + v)%nat) s v Hv)). rewrite (fp_length _ _ _ _ HF) in C. unfold a in C. lia. }
  split; [|exact R]. split; [unfold up in A; rewrite map_length in A; exact A|]. split; [rewrite <- (dn_up a s); apply dn_increasing; [apply up_high|exact B]|]. split; [exact C'|].
  intros u v Hu Hv L. rewrite <- (fp_second _ _ _ _ HF u v ltac:(specialize (C' v Hv); lia)). apply D; [apply (in_map (fun v => (a + v)%nat) s u Hu)|apply (in_map (fun v => (a + v)%nat) s v Hv)|lia].
Qed.
Lemma rips_i2 e r s : highb a s = true -> rips D2 e r (dn a s) -> rips Dist e r s.
Proof.
  intros E [(A & B & C & D) R]. rewrite <- (up_dn a s E). split; [|exact R]. split; [unfold up; rewrite map_length; exact A|]. split; [apply up_increasing; exact B|]. split.
  - intros v Hv. apply in_map_iff in Hv. destruct Hv as (w & <- & Hw). specialize (C w Hw). rewrite (fp_length _ _ _ _ HF). unfold a. lia.
  - intros u v Hu Hv L. apply in_map_iff in Hu. destruct Hu as (x & <- & Hx). apply in_map_iff in Hv. destruct Hv as (y & <- & Hy). unfold a in *. rewrite (fp_second _ _ _ _ HF x y ltac:(specialize (C y Hy); lia)). apply D; [exact Hx|exact Hy|lia].
Qed.

Lemma both_nil s : lowb a s = true -> highb a s = true -> s = [].
Proof. intros H1 H2. destruct s as [|x s]; [reflexivity|]. pose proof (proj1 (low_in a _) H1 x (or_introl eq_refl)). pose proof (proj1 (high_in a _) H2 x (or_introl eq_refl)). lia. Qed.

Theorem union_barcode d b1 b2 : rips_barcode p D1 M d b1 -> rips_barcode p D2 M d b2 -> rips_barcode p Dist M d (b1 ++ b2).
Proof.
  intros [I1 H1] [I2 H2]. split; [intros x Hx; apply in_app_or in Hx; destruct Hx; auto|]. intros r s Hrs. destruct (H1 r s Hrs) as (g1 & G1). destruct (H2 r s Hrs) as (g2 & G2). rewrite count_app. eexists.
  assert (P1 : 1 < p) by (destruct Hp; lia). pose proof (fp_length _ _ _ _ HF) as HL. fold a b in HL.
  assert (MI1 : forall q, q < M -> forall u, (s_cycle p a (fun e => rips D1 e q) d u -> s_cycle p (length Dist) (fun e => rips Dist e q) d (pb (lowb a) (fun s => s) u)) /\
    (s_bounds p a (fun e => rips D1 e q) d u -> s_bounds p (length Dist) (fun e => rips Dist e q) d (pb (lowb a) (fun s => s) u))).
  { intros q Hq u. apply (pb_move p a b Hp); [intros e t _; apply rips_i1|auto|reflexivity|]. intros e w t _ _. apply cong_eq. rewrite HL. apply bd_i1. }
  assert (MI2 : forall q, q < M -> forall u, (s_cycle p b (fun e => rips D2 e q) d u -> s_cycle p (length Dist) (fun e => rips Dist e q) d (pb (highb a) (dn a) u)) /\
    (s_bounds p b (fun e => rips D2 e q) d u -> s_bounds p (length Dist) (fun e => rips Dist e q) d (pb (highb a) (dn a) u))).
  { intros q Hq u. apply (pb_move p a b Hp); [intros e t; apply rips_i2|intros t; apply dn_increasing|intros t; apply map_length|]. intros e w t _ _. apply cong_eq. rewrite HL. apply bd_i2. }
  assert (MO1 : forall q, q < M -> forall u, (s_cycle p (length Dist) (fun e => rips Dist e q) d u -> s_cycle p a (fun e => rips D1 e q) d (pb (lowb a) (fun s => s) u)) /\
    (s_bounds p (length Dist) (fun e => rips Dist e q) d u -> s_bounds p a (fun e => rips D1 e q) d (pb (lowb a) (fun s => s) u))).
  { intros q Hq u. apply (pb_move p a b Hp); [intros e t; apply rips_o1|auto|reflexivity|]. intros e w t Hw Ht. rewrite HL. apply bd_o1; [|exact Ht]. apply (chain_mixes e q); assumption. }
  assert (MO2 : forall q, q < M -> forall u, (s_cycle p (length Dist) (fun e => rips Dist e q) d u -> s_cycle p b (fun e => rips D2 e q) d (pb (fun _ => true) (up a) u)) /\
    (s_bounds p (length Dist) (fun e => rips Dist e q) d u -> s_bounds p b (fun e => rips D2 e q) d (pb (fun _ => true) (up a) u))).
  { intros q Hq u. apply (pb_move p a b Hp); [intros e t _; apply rips_o2|intros t _; apply up_increasing|intros t; apply map_length|]. intros e w t Hw Ht. rewrite HL. apply bd_o2; [|exact Ht]. apply (chain_mixes e q); assumption. }
  refine (sum_basis (list nat) (list nat) (list nat) p Hp _ _ _ _ _ _ (pb (lowb a) (fun s => s)) (pb (highb a) (dn a)) (pb (lowb a) (fun s => s)) (pb (fun _ => true) (up a))
    (pb_affine _ _) (pb_affine _ _) (pb_linear _ _) (pb_linear _ _) _ _ _ _ _ _ _ _ _ _ _ _ _ _ _ _ _ g1 _ g2 G1 G2).
  - apply s_bounds_sub. exact P1.
  - apply s_bounds_sub. exact P1.
  - apply s_bounds_sub. exact P1.
  - intros v. apply (MI1 r ltac:(lia)).
  - intros v. apply (MI2 r ltac:(lia)).
  - intros v. apply (MO1 r ltac:(lia)).
  - intros v. apply (MO2 r ltac:(lia)).
  - intros v. apply (MI1 s ltac:(lia)).
  - intros v. apply (MI2 s ltac:(lia)).
  - intros v. apply (MO1 s ltac:(lia)).
  - intros v. apply (MO2 s ltac:(lia)).
  - intros v x [Hv _]. unfold pb. destruct (lowb a x) eqn:E; [apply cong_refl|]. apply cong_sym, (chain_zero _ d v x Hv). intros [(_ & _ & C & _) _]. rewrite (proj2 (low_in a x) C) in E. discriminate.
  - intros v x _. unfold pb. rewrite up_high, dn_up. apply cong_refl.
  - intros v x [Hv _]. unfold pb. destruct (lowb a x) eqn:E; [|apply cong_refl]. destruct (highb a x) eqn:F; [|apply cong_refl]. rewrite (both_nil x E F). apply (chain_zero _ d v _ Hv). apply rips_nonempty.
  - intros v x [Hv _]. unfold pb. destruct (lowb a (up a x)) eqn:E; [|apply cong_refl]. rewrite (both_nil _ E (up_high a x)). apply (chain_zero _ d v _ Hv). apply rips_nonempty.
  - intros v x [Hv _]. unfold pb. destruct (lowb a x) eqn:E, (highb a x) eqn:F.
    + rewrite (up_dn a x F). rewrite (both_nil x E F). pose proof (chain_zero _ d v [] Hv (rips_nonempty Dist d r)) as C. apply (cong_trans p _ (0 + 0)); [exact C|]. apply cong_add; apply cong_sym; exact C.
    + apply cong_eq. ring.
    + rewrite (up_dn a x F). apply cong_eq. ring.
    + apply (chain_mixes d r v ltac:(lia) Hv); assumption.
Qed.
End Far.
Print Assumptions union_barcode.
