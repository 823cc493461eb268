(** * The double complex of a cover with acyclic intersections *)
From Verif Require Import Base ListX SortX Lin Gauss_arith Spec_Simp Simp_lists Simp_diff Spec_PH Spec_Rips Rips_bd Spec_Bars Bars Rips_bars Bars_complex IK_lin Nerve_bd.
From Coq Require Import Sorted Permutation Znumtheory.
Local Open Scope Z_scope.

Lemma Zsum_first n f : Zsum (S n) f = f 0%nat + Zsum n (fun i => f (S i)).
Proof. change (S n) with (1 + n)%nat. rewrite Zsum_app. cbn [Zsum Nat.add]. ring. Qed.

(** Two filtered quotients have the same barcode when their cycles are related by a linear relation, total on both sides, under which boundaries correspond. *)
Lemma barcode_rel {X Y} p (Z1 B1 : Z -> (X -> Z) -> Prop) (Z2 B2 : Z -> (Y -> Z) -> Prop) (R : Z -> (X -> Z) -> (Y -> Z) -> Prop) M bars :
  (forall r n (c : nat -> Z) b b' u u', r < M -> (forall k, (k < n)%nat -> R r (b k) (b' k)) -> (forall i, cong p (u i) (Zsum n (fun k => c k * b k i))) ->
     (forall i, cong p (u' i) (Zsum n (fun k => c k * b' k i))) -> R r u u') ->
  (forall r s u v, r <= s < M -> R r u v -> R s u v) ->
  (forall r u, r < M -> Z1 r u -> exists v, R r u v /\ Z2 r v) -> (forall r v, r < M -> Z2 r v -> exists u, R r u v /\ Z1 r u) ->
  (forall r u v, r < M -> R r u v -> B1 r u <-> B2 r v) ->
  barcode p Z1 B1 M bars -> barcode p Z2 B2 M bars.
Proof.
  intros Hlin Hmono H12 H21 HB [Hb Hq]. split; [exact Hb|]. intros r s Hrs. destruct (Hq r s Hrs) as (g & G1 & G2 & G3). set (n := count_bars (spans r s) bars) in *.
  destruct (fin_choose (fun _ : Y => 0) n (fun k v => R r (g k) v /\ Z2 r v)) as (h & Hh).
  { intros k Hk. apply H12; [lia|]. apply G1; auto. }
  exists h. split; [|split].
  - intros k Hk _. apply Hh. exact Hk.
  - intros v Hv. destruct (H21 r v ltac:(lia) Hv) as (u & Hu & Zu). destruct (G2 u Zu) as (c & _ & Hc). exists c. split; [tauto|].
    apply (HB s _ (fun i => v i - Zsum n (fun k => c k * h k i)) ltac:(lia)) in Hc; [exact Hc|].
    apply (Hlin s (Datatypes.S n) (fun k => match k with O => 1 | Datatypes.S k' => - c k' end) (fun k => match k with O => u | Datatypes.S k' => g k' end)
      (fun k => match k with O => v | Datatypes.S k' => h k' end)); [lia| | |].
    + intros [|k] Hk; apply (Hmono r); [lia|exact Hu|lia|apply Hh; lia].
    + intros i. apply cong_eq. rewrite Zsum_first. rewrite (Zsum_ext n (fun k => - c k * g k i) (fun k => - (c k * g k i))) by (intros; ring). rewrite Zsum_opp. ring.
    + intros i. apply cong_eq. rewrite Zsum_first. rewrite (Zsum_ext n (fun k => - c k * h k i) (fun k => - (c k * h k i))) by (intros; ring). rewrite Zsum_opp. ring.
  - intros c _ Hc. apply G3; [tauto|]. apply (HB s _ (fun i => Zsum n (fun k => c k * h k i)) ltac:(lia)); [|exact Hc].
    apply (Hlin s n c g h); [lia| | |]; try (intros i; reflexivity). intros k Hk. apply (Hmono r); [lia|]. apply Hh. exact Hk.
Qed.

Fixpoint incb (t : list nat) : bool := match t with [] => true | x :: l => forallb (Nat.ltb x) l && incb l end.
Lemma incb_ok t : incb t = true <-> increasing t.
Proof.
  induction t as [|x l IH]; cbn [incb]; [split; [constructor|reflexivity]|]. rewrite Bool.andb_true_iff, IH, forallb_forall. split.
  - intros [H1 H2]. constructor; [exact H2|]. apply Forall_forall. intros y Hy. apply Nat.ltb_lt, H1, Hy.
  - intros H. apply StronglySorted_inv in H. destruct H as [H1 H2]. split; [|exact H1]. intros y Hy. apply Nat.ltb_lt. rewrite Forall_forall in H2. auto.
Qed.

Lemma list_choice {A B} (eqd : forall x y : A, {x = y} + {x <> y}) (b0 : B) (P : A -> B -> Prop) l : (forall x, In x l -> exists y, P x y) -> exists f, forall x, In x l -> P x (f x).
Proof.
  induction l as [|x l IH]; intros H; [exists (fun _ => b0); intros x []|].
  destruct IH as (f & Hf); [intros y Hy; apply H; right; exact Hy|]. destruct (H x ltac:(left; reflexivity)) as (y & Hy).
  exists (fun z => if eqd z x then y else f z). intros z Hz. destruct (eqd z x) as [->|Hn]; [exact Hy|]. destruct Hz as [<-|Hz]; [congruence|auto].
Qed.

Section Double.
Variables (p : Z) (n0 : nat) (U : nat -> list nat) (Dist : list (list Z)) (M : Z) (m : nat) (Ts : nat -> list (list nat)).
Hypothesis Hp : prime p.
Let N := length Dist.
Let p1 : 1 < p. Proof. destruct Hp. lia. Qed.

Definition cell (a : nat) (t s : list nat) : Prop := length t = a /\ increasing t /\ forall v, In v t -> (v < n0)%nat /\ incl s (U v).
(** Chains on the pairs of a set of [a] elements of the cover and a simplex of dimension [d] in their intersection. *)
Definition D (a d : nat) (r : Z) (F : list nat * list nat -> Z) : Prop := forall t s, ~ cong p (F (t, s)) 0 -> cell a t s /\ rips Dist d r s.
Definition del (F : list nat * list nat -> Z) (x : list nat * list nat) : Z := if incb (fst x) then simplicial_bd n0 (fun t => F (t, snd x)) (fst x) else 0.
Definition dd (F : list nat * list nat -> Z) (x : list nat * list nat) : Z := if incb (snd x) then simplicial_bd N (fun s => F (fst x, s)) (snd x) else 0.

Lemma lin_of (op : (list nat * list nat -> Z) -> list nat * list nat -> Z) x :
  (op = del \/ op = dd) -> forall n (c : nat -> Z) b v, (forall i, cong p (v i) (Zsum n (fun k => c k * b k i))) -> cong p (op v x) (Zsum n (fun k => c k * op (b k) x)).
Proof.
  intros [->| ->] n c b v H; unfold del, dd.
  - destruct (incb (fst x)); [|apply cong_eq; symmetry; apply Zsum_0; intros; ring]. apply (simplicial_bd_lin p n0 n c (fun k t => b k (t, snd x))). intros s. apply H.
  - destruct (incb (snd x)); [|apply cong_eq; symmetry; apply Zsum_0; intros; ring]. apply (simplicial_bd_lin p N n c (fun k s => b k (fst x, s))). intros s. apply H.
Qed.
Lemma del_lin n (c : nat -> Z) b v x : (forall i, cong p (v i) (Zsum n (fun k => c k * b k i))) -> cong p (del v x) (Zsum n (fun k => c k * del (b k) x)).
Proof. apply lin_of. auto. Qed.
Lemma dd_lin n (c : nat -> Z) b v x : (forall i, cong p (v i) (Zsum n (fun k => c k * b k i))) -> cong p (dd v x) (Zsum n (fun k => c k * dd (b k) x)).
Proof. apply lin_of. auto. Qed.
Lemma del_cong u v x : (forall i, cong p (u i) (v i)) -> cong p (del u x) (del v x).
Proof. intros H. rewrite (del_lin 1 (fun _ => 1) (fun _ => v) u x); [apply cong_eq; cbn [Zsum]; ring|]. intros i. cbn [Zsum]. rewrite (H i). apply cong_eq. ring. Qed.
Lemma dd_cong u v x : (forall i, cong p (u i) (v i)) -> cong p (dd u x) (dd v x).
Proof. intros H. rewrite (dd_lin 1 (fun _ => 1) (fun _ => v) u x); [apply cong_eq; cbn [Zsum]; ring|]. intros i. cbn [Zsum]. rewrite (H i). apply cong_eq. ring. Qed.
Lemma del_sub u v x : cong p (del (fun i => u i - v i) x) (del u x - del v x).
Proof.
  rewrite (del_lin 2 (fun k => if Nat.eqb k 0 then 1 else -1) (fun k => if Nat.eqb k 0 then u else v)); [apply cong_eq; cbn [Zsum Nat.eqb]; ring|].
  intros i. apply cong_eq. cbn [Zsum Nat.eqb]. ring.
Qed.
Lemma dd_sub u v x : cong p (dd (fun i => u i - v i) x) (dd u x - dd v x).
Proof.
  rewrite (dd_lin 2 (fun k => if Nat.eqb k 0 then 1 else -1) (fun k => if Nat.eqb k 0 then u else v)); [apply cong_eq; cbn [Zsum Nat.eqb]; ring|].
  intros i. apply cong_eq. cbn [Zsum Nat.eqb]. ring.
Qed.
Lemma del_zero u x : (forall i, cong p (u i) 0) -> cong p (del u x) 0.
Proof. intros H. rewrite (del_lin 0 (fun _ => 0) (fun _ => u) u x); [reflexivity|]. exact H. Qed.
Lemma dd_zero u x : (forall i, cong p (u i) 0) -> cong p (dd u x) 0.
Proof. intros H. rewrite (dd_lin 0 (fun _ => 0) (fun _ => u) u x); [reflexivity|]. exact H. Qed.

Lemma bd_ext n c c' t : increasing t -> (forall s, increasing s -> c s = c' s) -> simplicial_bd n c t = simplicial_bd n c' t.
Proof.
  intros Ht H. rewrite !bd_sgn. apply Zsum_ext. intros v _. destruct (memn v t) eqn:E; [reflexivity|]. rewrite H; [reflexivity|]. apply insert_increasing; [exact Ht|]. apply memn_false, E.
Qed.
Lemma del_del F x : del (del F) x = 0.
Proof.
  unfold del. cbn [fst snd]. destruct (incb (fst x)) eqn:E; [|reflexivity]. apply incb_ok in E. rewrite (bd_ext n0 _ (simplicial_bd n0 (fun t => F (t, snd x)))); [apply bd_bd; exact E|exact E|].
  intros s Hs. apply incb_ok in Hs. rewrite Hs. reflexivity.
Qed.
Lemma dd_dd F x : dd (dd F) x = 0.
Proof.
  unfold dd. cbn [fst snd]. destruct (incb (snd x)) eqn:E; [|reflexivity]. apply incb_ok in E. rewrite (bd_ext N _ (simplicial_bd N (fun t => F (fst x, t)))); [apply bd_bd; exact E|exact E|].
  intros s Hs. apply incb_ok in Hs. rewrite Hs. reflexivity.
Qed.
Lemma bd_zero n t : simplicial_bd n (fun _ => 0) t = 0.
Proof. rewrite bd_sgn. apply Zsum_0. intros v _. destruct (memn v t); ring. Qed.
Lemma del_dd F x : del (dd F) x = dd (del F) x.
Proof.
  unfold del, dd. cbn [fst snd]. destruct (incb (fst x)) eqn:E1, (incb (snd x)) eqn:E2; try reflexivity; try apply bd_zero; try (symmetry; apply bd_zero).
  rewrite !bd_sgn. 
  transitivity (Zsum n0 (fun v => Zsum N (fun w => if memn v (fst x) then 0 else if memn w (snd x) then 0 else sgn v (fst x) * sgn w (snd x) * F (insert_vertex v (fst x), insert_vertex w (snd x))))).
  - apply Zsum_ext. intros v _. destruct (memn v (fst x)); [symmetry; apply Zsum_0; auto|]. rewrite bd_sgn, <- Zsum_scale. apply Zsum_ext. intros w _. destruct (memn w (snd x)); ring.
  - rewrite Zsum_swap. apply Zsum_ext. intros w _. destruct (memn w (snd x)); [apply Zsum_0; intros v _; destruct (memn v (fst x)); reflexivity|]. rewrite bd_sgn, <- Zsum_scale. apply Zsum_ext. intros v _. destruct (memn v (fst x)); ring.
Qed.

(** ** Supports *)
Let neq0 a : a mod p <> 0 <-> ~ cong p a 0.
Proof. rewrite (cong_iff_mod p a 0) by lia. rewrite Z.mod_0_l by lia. reflexivity. Qed.
Let ceq a b : cong p a b <-> a mod p = b mod p.
Proof. apply cong_iff_mod. lia. Qed.
Lemma Zsum_nz n f : ~ cong p (Zsum n f) 0 -> exists k, (k < n)%nat /\ ~ cong p (f k) 0.
Proof. intros H. destruct (all_zero p n f) as [A|A]; [destruct H; apply Zsum_cong0; exact A|exact A]. Qed.
Lemma D_sub a d r : Spec_Bars.subspace p (D a d r).
Proof.
  intros n c b v Hb Hv t s H. destruct (Zsum_nz n (fun k => c k * b k (t, s))) as (k & Hk & Hnz).
  - intros H'. apply H. transitivity (Zsum n (fun k => c k * b k (t, s))); [|exact H']. apply ceq, Hv.
  - apply (Hb k Hk). intros H'. apply Hnz. rewrite H'. apply cong_eq. ring.
Qed.
Lemma D_cong a d r u v : (forall i, cong p (u i) (v i)) -> D a d r u -> D a d r v.
Proof. intros H Hu t s Hn. apply Hu. intros H'. apply Hn. rewrite <- (H (t, s)). exact H'. Qed.
Lemma D_mono a d r s u : r <= s -> D a d r u -> D a d s u.
Proof. intros Hrs Hu t w Hn. destruct (Hu t w Hn) as [H1 H2]. split; [exact H1|]. apply (rips_mono _ _ r); auto. Qed.
Lemma D_minus a d r u v : D a d r u -> D a d r v -> D a d r (fun i => u i - v i).
Proof. intros Hu Hv. apply (subs_sub p); [apply D_sub|exact Hu|exact Hv]. Qed.
Lemma D_del a d r F : D (Datatypes.S a) d r F -> D a d r (del F).
Proof.
  intros HF t s Hn. unfold del in Hn. cbn [fst snd] in Hn. destruct (incb t) eqn:E; [|destruct Hn; reflexivity]. apply incb_ok in E. rewrite bd_sgn in Hn.
  destruct (Zsum_nz _ _ Hn) as (v & Hv & Hnz). cbv beta in Hnz. destruct (memn v t) eqn:Ev; [destruct Hnz; reflexivity|]. apply memn_false in Ev.
  destruct (HF (insert_vertex v t) s) as ((L & I1 & C) & HR); [intros H'; apply Hnz; rewrite H'; apply cong_eq; ring|]. split; [|exact HR].
  rewrite insert_length in L by auto. split; [lia|]. split; [exact E|]. intros w Hw. apply C. rewrite insert_In by exact Ev. auto.
Qed.
Lemma rips_insert d r s w : increasing s -> ~ In w s -> rips Dist (Datatypes.S d) r (insert_vertex w s) -> rips Dist d r s.
Proof.
  intros Hs Hw [(L & _ & B & A) Hr]. rewrite insert_length in L by auto. split; [|exact Hr]. split; [lia|]. split; [exact Hs|]. split.
  - intros v Hv. apply B. rewrite insert_In by exact Hw. auto.
  - intros u v Hu Hv. apply A; rewrite insert_In by exact Hw; auto.
Qed.
Lemma D_dd a d r F : D a (Datatypes.S d) r F -> D a d r (dd F).
Proof.
  intros HF t s Hn. unfold dd in Hn. cbn [fst snd] in Hn. destruct (incb s) eqn:E; [|destruct Hn; reflexivity]. apply incb_ok in E. rewrite bd_sgn in Hn.
  destruct (Zsum_nz _ _ Hn) as (v & Hv & Hnz). cbv beta in Hnz. destruct (memn v s) eqn:Ev; [destruct Hnz; reflexivity|]. apply memn_false in Ev.
  destruct (HF t (insert_vertex v s)) as ((L & I1 & C) & HR); [intros H'; apply Hnz; rewrite H'; apply cong_eq; ring|]. split; [|apply (rips_insert d r s v); auto].
  split; [exact L|]. split; [exact I1|]. intros w Hw. destruct (C w Hw) as [C1 C2]. split; [exact C1|]. intros q Hq. apply C2. rewrite insert_In by exact Ev. auto.
Qed.

(** ** The rows are exact *)
Hypothesis Hfine : forall d r s, (d <= m)%nat -> r < M -> rips Dist d r s -> exists k, (k < n0)%nat /\ incl s (U k).
Definition home (s : list nat) : option nat := find (fun v => forallb (fun q => memn q (U v)) s) (seq 0 n0).
Definition cone (F : list nat * list nat -> Z) (x : list nat * list nat) : Z :=
  match home (snd x) with Some a => if incb (fst x) then cone_at a (fun t => F (t, snd x)) (fst x) else 0 | None => 0 end.

Lemma home_some s v : home s = Some v -> (v < n0)%nat /\ incl s (U v).
Proof.
  intros H. apply find_some in H. destruct H as [H1 H2]. apply in_seq in H1. split; [lia|]. intros q Hq. rewrite forallb_forall in H2. apply memn_In. auto.
Qed.
Lemma home_ok s v : (v < n0)%nat -> incl s (U v) -> home s <> None.
Proof.
  intros Hv HU H. unfold home in H. apply (find_none _ _ H v) in Hv as Hv' || (apply find_none with (x := v) in H; [|apply in_seq; lia]).
  assert (E : forallb (fun q => memn q (U v)) s = true) by (apply forallb_forall; intros q Hq; apply memn_In; auto). congruence.
Qed.
Lemma cell_home a d r t s : (d <= m)%nat -> r < M -> cell a t s -> rips Dist d r s -> home s <> None.
Proof. intros Hd Hr _ HR. destruct (Hfine d r s Hd Hr HR) as (k & Hk & HU). exact (home_ok s k Hk HU). Qed.

Lemma row_exact a d r F : (d <= m)%nat -> r < M -> D a d r F -> (forall x, cong p (del F x) 0) -> D (Datatypes.S a) d r (cone F) /\ forall x, cong p (del (cone F) x) (F x).
Proof.
  intros Hd Hr HF H0. split.
  - intros t s Hn. unfold cone in Hn. cbn [fst snd] in Hn. destruct (home s) as [v|] eqn:Eh; [|destruct Hn; reflexivity]. destruct (incb t) eqn:Et; [|destruct Hn; reflexivity]. apply incb_ok in Et.
    unfold cone_at in Hn. destruct (memn v t) eqn:Ev; [|destruct Hn; reflexivity]. apply memn_In in Ev. destruct (home_some s v Eh) as [Hv HU].
    destruct (HF (without v t) s) as ((L & I1 & C) & HR); [intros H'; apply Hn; rewrite H'; apply cong_eq; ring|]. split; [|exact HR].
    assert (Hnv : ~ In v (without v t)) by (rewrite without_In; tauto). split; [|split; [exact Et|]].
    + rewrite <- (insert_without v t Et Ev), insert_length by auto. lia.
    + intros w Hw. destruct (Nat.eq_dec w v) as [->|Hwv]; [auto|]. apply C. rewrite without_In. auto.
  - intros [t s]. destruct (incb t) eqn:Et.
    + destruct (home s) as [v|] eqn:Eh.
      * destruct (home_some s v Eh) as [Hv HU]. pose proof Et as Et'. apply incb_ok in Et'.
        assert (E : del (cone F) (t, s) = simplicial_bd n0 (cone_at v (fun t => F (t, s))) t).
        { unfold del. cbn [fst snd]. rewrite Et. apply bd_ext; [exact Et'|]. intros u Hu. unfold cone. cbn [fst snd]. rewrite Eh. apply incb_ok in Hu. rewrite Hu. reflexivity. }
        rewrite E. pose proof (cone_bd n0 v (fun t => F (t, s)) t Hv Et') as HC. cbv beta in HC. rewrite <- HC.
        destruct (memn v t) eqn:Ev; [|apply cong_eq; ring].
        assert (Hw : cong p (simplicial_bd n0 (fun t => F (t, s)) (without v t)) 0).
        { specialize (H0 (without v t, s)). unfold del in H0. cbn [fst snd] in H0. replace (incb (without v t)) with true in H0; [exact H0|]. symmetry. apply incb_ok, without_increasing, Et'. }
        rewrite Hw. apply cong_eq. ring.
      * assert (HF0 : cong p (F (t, s)) 0).
        { destruct (cong_dec p (F (t, s)) 0) as [H|H]; [exact H|]. destruct (HF t s H) as [HC HR]. destruct (cell_home a d r t s Hd Hr HC HR Eh). }
        rewrite HF0. unfold del. cbn [fst snd]. rewrite Et. rewrite (bd_ext n0 _ (fun _ => 0)); [rewrite bd_zero; reflexivity|apply incb_ok; exact Et|].
        intros u _. unfold cone. cbn [fst snd]. rewrite Eh. reflexivity.
    + unfold del. cbn [fst snd]. rewrite Et. destruct (cong_dec p (F (t, s)) 0) as [H|H]; [rewrite H; reflexivity|]. destruct (HF t s H) as [(_ & I1 & _) _]. apply incb_ok in I1. congruence.
Qed.

(** ** The columns are exact *)
Definition part_of (t : list nat) (r : Z) (d : nat) (s : list nat) : Prop := rips Dist d r s /\ forall v, In v t -> incl s (U v).
Hypothesis Hfull : forall a t q, length t = a -> (0 < a)%nat -> increasing t -> (forall v, In v t -> (v < n0)%nat /\ In q (U v)) -> In t (Ts a).
Hypothesis Hacyc : forall a t d r c, (0 < a)%nat -> In t (Ts a) -> (1 <= d < m)%nat -> r < M -> s_cycle p N (part_of t r) d c -> s_bounds p N (part_of t r) d c.

Lemma rips_ne d r s : rips Dist d r s -> exists q, In q s.
Proof. intros [(L & _) _]. destruct s as [|q s]; [discriminate|]. exists q. left. reflexivity. Qed.
Lemma D_Ts a d r F t s : (0 < a)%nat -> D a d r F -> ~ cong p (F (t, s)) 0 -> In t (Ts a).
Proof.
  intros Ha HF Hn. destruct (HF t s Hn) as [(L & I1 & C) HR]. destruct (rips_ne d r s HR) as (q & Hq). apply (Hfull a t q); auto.
  intros v Hv. destruct (C v Hv) as [C1 C2]. auto.
Qed.

Lemma col_exact a d r F : (0 < a)%nat -> (1 <= d < m)%nat -> r < M -> D a d r F -> (forall x, cong p (dd F x) 0) -> exists G, D a (Datatypes.S d) r G /\ forall x, cong p (dd G x) (F x).
Proof.
  intros Ha Hd Hr HF H0.
  assert (Hgood : forall t s, ~ cong p (F (t, s)) 0 -> length t = a /\ increasing t /\ forall v, In v t -> (v < n0)%nat).
  { intros t s Hn. destruct (HF t s Hn) as [(L & I1 & C) _]. split; [exact L|]. split; [exact I1|]. intros v Hv. apply C, Hv. }
  destruct (list_choice (list_eq_dec Nat.eq_dec) (fun _ : list nat => 0) (fun t w =>
     s_chain p (part_of t r) (Datatypes.S d) w /\ (forall u, increasing u -> length u = Datatypes.S d -> simplicial_bd N w u mod p = F (t, u) mod p)) (Ts a)) as (W & HW).
  { intros t Ht. assert (HC : s_cycle p N (part_of t r) d (fun s => F (t, s))).
    { split.
      - intros s Hs. apply neq0 in Hs. destruct (HF t s Hs) as [(_ & _ & C) HR]. split; [exact HR|]. intros v Hv. apply C, Hv.
      - intros _ u Hu _. specialize (H0 (t, u)). unfold dd in H0. cbn [fst snd] in H0. apply incb_ok in Hu. rewrite Hu in H0. apply ceq in H0. rewrite Z.mod_0_l in H0 by lia. exact H0. }
    destruct (Hacyc a t d r _ Ha Ht Hd Hr HC) as (_ & w & Hw & Hb). exists w. split; [exact Hw|exact Hb]. }
  set (ok := fun t => (Nat.eqb (length t) a && incb t && forallb (fun v => Nat.ltb v n0) t && (if in_dec (list_eq_dec Nat.eq_dec) t (Ts a) then true else false))%bool).
  assert (Hok : forall t, ok t = true <-> length t = a /\ increasing t /\ (forall v, In v t -> (v < n0)%nat) /\ In t (Ts a)).
  { intros t. unfold ok. rewrite !Bool.andb_true_iff, Nat.eqb_eq, incb_ok, forallb_forall. destruct (in_dec (list_eq_dec Nat.eq_dec) t (Ts a)) as [i|i].
    - split; [intros [[[A1 A2] A3] _]; repeat split; auto; intros v Hv; apply Nat.ltb_lt; auto|intros (A1 & A2 & A3 & _); repeat split; auto; intros v Hv; apply Nat.ltb_lt; auto].
    - split; [intros [_ E]; discriminate|tauto]. }
  exists (fun x => if ok (fst x) then W (fst x) (snd x) else 0). split.
  - intros t s Hn. cbn [fst snd] in Hn. destruct (ok t) eqn:E; [|destruct Hn; reflexivity]. apply Hok in E. destruct E as (A1 & A2 & A3 & A4). destruct (HW t A4) as [HS _].
    apply neq0 in Hn. destruct (HS s Hn) as [HR HU]. split; [|exact HR]. split; [exact A1|]. split; [exact A2|]. intros v Hv. auto.
  - intros [t s]. unfold dd. cbn [fst snd]. destruct (incb s) eqn:Es.
    + apply incb_ok in Es. destruct (ok t) eqn:E.
      * apply Hok in E. destruct E as (A1 & A2 & A3 & A4). destruct (HW t A4) as [HS HB]. destruct (Nat.eq_dec (length s) (Datatypes.S d)) as [El|El].
        -- apply ceq. apply HB; auto.
        -- transitivity 0.
           ++ rewrite bd_sgn. apply Zsum_cong0. intros v _. destruct (memn v s) eqn:Ev; [reflexivity|]. apply memn_false in Ev.
              destruct (cong_dec p (W t (insert_vertex v s)) 0) as [H|H]; [rewrite H; apply cong_eq; ring|]. apply neq0 in H. destruct (HS _ H) as [[(L & _) _] _]. rewrite insert_length in L by auto. lia.
           ++ symmetry. destruct (cong_dec p (F (t, s)) 0) as [H|H]; [exact H|]. destruct (HF t s H) as [_ [(L & _) _]]. lia.
      * rewrite bd_zero. symmetry. destruct (cong_dec p (F (t, s)) 0) as [H|H]; [exact H|]. assert (Ho : ok t = true); [|congruence]. apply Hok.
        destruct (Hgood t s H) as (A1 & A2 & A3). repeat split; auto. apply (D_Ts a d r F t s); auto.
    + symmetry. destruct (cong_dec p (F (t, s)) 0) as [H|H]; [exact H|]. destruct (HF t s H) as [_ [(_ & I1 & _) _]]. apply incb_ok in I1. congruence.
Qed.

(** ** Kernels of the Cech differential *)
Definition Kz (a d : nat) (r : Z) (x : list nat * list nat -> Z) : Prop := D a d r x /\ forall i, cong p (del x i) 0.
Definition Zc (a d : nat) (r : Z) (x : list nat * list nat -> Z) : Prop := Kz a d r x /\ forall i, cong p (dd x i) 0.
Definition Zim (a d : nat) (r : Z) (x : list nat * list nat -> Z) : Prop := Kz a d r x /\ exists y, D a (Datatypes.S d) r y /\ forall i, cong p (dd y i) (x i).
Definition Bk (a d : nat) (r : Z) (x : list nat * list nat -> Z) : Prop := Kz a d r x /\ exists w, Kz a (Datatypes.S d) r w /\ forall i, cong p (dd w i) (x i).
Definition St (a d : nat) (r : Z) (x x' : list nat * list nat -> Z) : Prop :=
  Zc a (Datatypes.S d) r x /\ exists y, D (Datatypes.S a) (Datatypes.S d) r y /\ (forall i, cong p (del y i) (x i)) /\ forall i, cong p (dd y i) (x' i).

Lemma Kz_sub a d r : Spec_Bars.subspace p (Kz a d r).
Proof.
  intros n c b v Hb Hv. split; [apply (D_sub a d r n c b v); [intros k Hk; apply Hb, Hk|exact Hv]|]. intros i. rewrite (del_lin n c b v i); [|intros j; apply ceq, Hv].
  apply Zsum_cong0. intros k Hk. destruct (Hb k Hk) as [_ H]. rewrite (H i). apply cong_eq. ring.
Qed.
Lemma Zc_sub a d r : Spec_Bars.subspace p (Zc a d r).
Proof.
  intros n c b v Hb Hv. split; [apply (Kz_sub a d r n c b v); [intros k Hk; apply Hb, Hk|exact Hv]|]. intros i. rewrite (dd_lin n c b v i); [|intros j; apply ceq, Hv].
  apply Zsum_cong0. intros k Hk. destruct (Hb k Hk) as [_ H]. rewrite (H i). apply cong_eq. ring.
Qed.
Lemma lc_cong n (c : nat -> Z) (f g : nat -> list nat * list nat -> Z) : (forall k, (k < n)%nat -> forall i, cong p (f k i) (g k i)) ->
  forall i, cong p (Zsum n (fun k => c k * f k i)) (Zsum n (fun k => c k * g k i)).
Proof. intros H i. apply Zsum_cong. intros k Hk. rewrite (H k Hk i). reflexivity. Qed.

Lemma St_lin a d r n (c : nat -> Z) b b' u u' : (forall k, (k < n)%nat -> St a d r (b k) (b' k)) -> (forall i, cong p (u i) (Zsum n (fun k => c k * b k i))) ->
  (forall i, cong p (u' i) (Zsum n (fun k => c k * b' k i))) -> St a d r u u'.
Proof.
  intros H Hu Hu'. destruct (fin_choose (fun _ => 0) n (fun k y => D (Datatypes.S a) (Datatypes.S d) r y /\ (forall i, cong p (del y i) (b k i)) /\ forall i, cong p (dd y i) (b' k i))) as (y & Hy).
  { intros k Hk. destruct (H k Hk) as [_ Hy]. exact Hy. }
  split; [apply (Zc_sub a (Datatypes.S d) r n c b u); [intros k Hk; apply (H k Hk)|intros i; apply ceq, Hu]|].
  exists (fun i => Zsum n (fun k => c k * y k i)). split; [|split].
  - apply (D_sub _ _ r n c y); [intros k Hk; apply Hy, Hk|reflexivity].
  - intros i. rewrite (del_lin n c y _ i) by reflexivity. rewrite (Hu i). apply (lc_cong n c (fun k => del (y k)) b). intros k Hk. apply Hy, Hk.
  - intros i. rewrite (dd_lin n c y _ i) by reflexivity. rewrite (Hu' i). apply (lc_cong n c (fun k => dd (y k)) b'). intros k Hk. apply Hy, Hk.
Qed.

Lemma Kz_mono a d r s u : r <= s -> Kz a d r u -> Kz a d s u.
Proof. intros Hrs [H1 H2]. split; [apply (D_mono a d r); auto|exact H2]. Qed.
Lemma Kz_cong a d r u v : (forall i, cong p (u i) (v i)) -> Kz a d r u -> Kz a d r v.
Proof. intros H. apply (subs_cong p Hp); [apply Kz_sub|exact H]. Qed.
Lemma Kz_minus a d r u v : Kz a d r u -> Kz a d r v -> Kz a d r (fun i => u i - v i).
Proof. intros Hu Hv. apply (subs_sub p); [apply Kz_sub|exact Hu|exact Hv]. Qed.
Lemma Kz_del a d r y : D (Datatypes.S a) d r y -> Kz a d r (del y).
Proof. intros H. split; [apply D_del, H|]. intros i. rewrite del_del. reflexivity. Qed.
Lemma Kz_dd a d r y : Kz a (Datatypes.S d) r y -> Kz a d r (dd y).
Proof. intros [H1 H2]. split; [apply D_dd, H1|]. intros i. rewrite del_dd. apply dd_zero, H2. Qed.

Lemma step_barcode a d bars : (Datatypes.S d < m)%nat -> barcode p (Zim (Datatypes.S a) d) (Bk (Datatypes.S a) d) M bars -> barcode p (Zc a (Datatypes.S d)) (Bk a (Datatypes.S d)) M bars.
Proof.
  intros Hd. apply (barcode_rel p _ _ _ _ (fun r x' x => St a d r x x')).
  - intros r n c b b' u u' _ H Hu Hu'. exact (St_lin a d r n c b' b u' u H Hu' Hu).
  - intros r s u v Hrs ((H1 & H2) & y & H3 & H4 & H5). split; [split; [apply (Kz_mono _ _ r); [lia|exact H1]|exact H2]|]. exists y. split; [apply (D_mono _ _ r); [lia|exact H3]|auto].
  - intros r x' Hr ((H1 & H2) & y & H3 & H4).
    assert (HZ : Zc a (Datatypes.S d) r (del y)).
    { split; [apply Kz_del; exact H3|]. intros i. rewrite <- del_dd. rewrite (del_cong _ x' i H4). apply H2. }
    exists (del y). split; [|exact HZ]. split; [exact HZ|]. exists y. split; [exact H3|]. split; [reflexivity|exact H4].
  - intros r x Hr ((H1 & H2) & H3). destruct (row_exact a (Datatypes.S d) r x ltac:(lia) Hr H1 H2) as [Hy Ey]. exists (dd (cone x)). split.
    + split; [split; [split; [exact H1|exact H2]|exact H3]|]. exists (cone x). split; [exact Hy|]. split; [exact Ey|reflexivity].
    + split; [|exists (cone x); split; [exact Hy|reflexivity]]. split; [apply D_dd, Hy|]. intros i. rewrite del_dd. rewrite (dd_cong _ x i Ey). apply H3.
  - intros r x' x Hr (((H1 & H2) & H3) & y & Hy & Ey & Fy). split.
    + intros (HK & w & [Hw Hw0] & Ew). split; [split; auto|].
      destruct (col_exact (Datatypes.S a) (Datatypes.S d) r (fun i => y i - w i) ltac:(lia) ltac:(lia) Hr (D_minus _ _ _ _ _ Hy Hw)) as (u & Hu & Eu).
      { intros i. rewrite dd_sub, (Fy i), (Ew i). apply cong_eq. ring. }
      exists (del u). split; [apply Kz_del, Hu|]. intros i. rewrite <- del_dd, (del_cong _ _ i Eu), del_sub, (Ey i), (Hw0 i). apply cong_eq. ring.
    + intros (_ & w & [Hw Hw0] & Ew). destruct (row_exact a (Datatypes.S (Datatypes.S d)) r w ltac:(lia) Hr Hw Hw0) as [Hu Eu].
      assert (HK : Kz (Datatypes.S a) (Datatypes.S d) r (fun i => y i - dd (cone w) i)).
      { split; [apply D_minus; [exact Hy|apply D_dd, Hu]|]. intros i. rewrite del_sub, (Ey i), del_dd, (dd_cong _ w i Eu), (Ew i). apply cong_eq. ring. }
      assert (HE : forall i, cong p (dd (fun i => y i - dd (cone w) i) i) (x' i)).
      { intros i. rewrite dd_sub, dd_dd, (Fy i). apply cong_eq. ring. }
      split; [|exists (fun i => y i - dd (cone w) i); split; [exact HK|exact HE]].
      apply (Kz_cong _ _ _ (dd (fun i => y i - dd (cone w) i))); [exact HE|]. apply Kz_dd. exact HK.
Qed.

Lemma Zim_Zc a d r x : (0 < a)%nat -> (1 <= d < m)%nat -> r < M -> Zim a d r x <-> Zc a d r x.
Proof.
  intros Ha Hd Hr. split.
  - intros (H1 & y & Hy & Ey). split; [exact H1|]. intros i. rewrite <- (dd_cong _ x i Ey), dd_dd. reflexivity.
  - intros (H1 & H2). split; [exact H1|]. destruct (col_exact a d r x Ha Hd Hr (proj1 H1) H2) as (y & Hy & Ey). exists y. auto.
Qed.

Lemma chain_barcode a : forall d bars, (Datatypes.S (a + d) < m)%nat -> barcode p (Zim (Datatypes.S a) d) (Bk (Datatypes.S a) d) M bars -> barcode p (Zc 0 (Datatypes.S (a + d))) (Bk 0 (Datatypes.S (a + d))) M bars.
Proof.
  induction a as [|a IH]; intros d bars Hd H.
  - apply step_barcode; [exact Hd|exact H].
  - replace (Datatypes.S (Datatypes.S a + d)) with (Datatypes.S (a + Datatypes.S d)) by lia. apply IH; [lia|].
    apply (barcode_iff p (Zc (Datatypes.S a) (Datatypes.S d)) _ (Bk (Datatypes.S a) (Datatypes.S d))); [|reflexivity|apply step_barcode; [lia|exact H]].
    intros r v Hr. symmetry. apply Zim_Zc; [lia|lia|exact Hr].
Qed.

(** ** The second page *)
Definition E2z (n : nat) (r : Z) (v : list nat * list nat -> Z) : Prop :=
  D (Datatypes.S n) 0 r v /\ exists w, D n 1 r w /\ forall i, cong p (dd w i) (del v i).
Definition E2b (n : nat) (r : Z) (v : list nat * list nat -> Z) : Prop :=
  D (Datatypes.S n) 0 r v /\ exists w u, D (Datatypes.S (Datatypes.S n)) 0 r w /\ D (Datatypes.S n) 1 r u /\ forall i, cong p (v i) (del w i + dd u i).

Lemma second_barcode n bars : (1 <= m)%nat -> barcode p (E2z n) (E2b n) M bars -> barcode p (Zim n 0) (Bk n 0) M bars.
Proof.
  intros Hm. apply (barcode_rel p _ _ _ _ (fun r v x => D (Datatypes.S n) 0 r v /\ forall i, cong p (del v i) (x i))).
  - intros r N' c b b' u u' Hr H Hu Hu'. split; [apply (D_sub _ _ r N' c b); [intros k Hk; apply H, Hk|intros i; apply ceq, Hu]|].
    intros i. rewrite (del_lin N' c b u i Hu), (Hu' i). apply (lc_cong N' c (fun k => del (b k)) b'). intros k Hk. apply H, Hk.
  - intros r s u v Hrs [H1 H2]. split; [apply (D_mono _ _ r); [lia|exact H1]|exact H2].
  - intros r v Hr (H1 & w & Hw & Ew). exists (del v). split; [split; [exact H1|reflexivity]|]. split; [apply Kz_del, H1|]. exists w. auto.
  - intros r x Hr ((H1 & H2) & y & Hy & Ey). destruct (row_exact n 0 r x ltac:(lia) Hr H1 H2) as [Hc Ec]. exists (cone x). split; [auto|]. split; [exact Hc|].
    exists y. split; [exact Hy|]. intros i. rewrite (Ey i), (Ec i). reflexivity.
  - intros r v x Hr [Hv Ev]. split.
    + intros (_ & w & u & Hw & Hu & E).
      assert (EX : forall i, cong p (dd (del u) i) (x i)).
      { intros i. rewrite <- (Ev i). rewrite <- del_dd. rewrite (del_cong v (fun i => dd u i - (-1) * del w i) i); [|intros j; rewrite (E j); apply cong_eq; ring].
        rewrite del_sub. rewrite (del_lin 1 (fun _ => -1) (fun _ => del w) (fun j => (-1) * del w j) i); [|intros j; apply cong_eq; cbn [Zsum]; ring]. cbn [Zsum]. rewrite del_del. apply cong_eq. ring. }
      split; [|exists (del u); split; [apply Kz_del, Hu|exact EX]]. apply (Kz_cong _ _ _ (dd (del u))); [exact EX|]. apply Kz_dd, Kz_del, Hu.
    + intros (_ & w' & [Hw' Hw0] & Ew). destruct (row_exact n 1 r w' ltac:(lia) Hr Hw' Hw0) as [Hu Eu]. split; [exact Hv|].
      destruct (row_exact (Datatypes.S n) 0 r (fun i => v i - dd (cone w') i) ltac:(lia) Hr) as [Hw Ew2].
      { apply D_minus; [exact Hv|apply D_dd, Hu]. }
      { intros i. rewrite del_sub, (Ev i), del_dd, (dd_cong _ w' i Eu), (Ew i). apply cong_eq. ring. }
      exists (cone (fun i => v i - dd (cone w') i)), (cone w'). split; [exact Hw|]. split; [exact Hu|]. intros i. rewrite (Ew2 i). apply cong_eq. ring.
Qed.

(** The homology of the cloud itself. *)
Lemma rips_of_Zc d bars : barcode p (Zc 0 d) (Bk 0 d) M bars -> (0 < d)%nat ->
  barcode p (fun r => s_cycle p N (fun d => rips Dist d r) d) (fun r => s_bounds p N (fun d => rips Dist d r) d) M bars.
Proof.
  intros HB Hd.
  set (R := fun (r : Z) (x : list nat * list nat -> Z) (c : list nat -> Z) => D 0 d r x /\ forall s, cong p (x ([], s)) (c s)).
  assert (lift : forall d' r c, s_chain p (fun d => rips Dist d r) d' c -> D 0 d' r (fun x => match fst x with [] => c (snd x) | _ => 0 end)).
  { intros d' r c Hc t s Hn. cbn [fst snd] in Hn. destruct t as [|t0 t]; [|destruct Hn; reflexivity]. apply neq0 in Hn. split; [|apply Hc; exact Hn]. split; [reflexivity|]. split; [constructor|]. intros v []. }
  assert (drop : forall d' r x, D 0 d' r x -> s_chain p (fun d => rips Dist d r) d' (fun s => x ([], s))).
  { intros d' r x Hx s Hs. apply neq0 in Hs. apply (Hx [] s Hs). }
  assert (dz : forall d' r x, D 0 d' r x -> forall i, cong p (del x i) 0).
  { intros d' r x Hx [t s]. unfold del. cbn [fst snd]. destruct (incb t) eqn:E; [|reflexivity]. apply incb_ok in E. rewrite bd_sgn. apply Zsum_cong0. intros v _. destruct (memn v t) eqn:Ev; [reflexivity|].
    apply memn_false in Ev. destruct (cong_dec p (x (insert_vertex v t, s)) 0) as [H|H]; [rewrite H; apply cong_eq; ring|]. destruct (Hx _ _ H) as [(L & _) _]. rewrite insert_length in L by auto. lia. }
  assert (bdl : forall d' r x t, D 0 d' r x -> increasing t -> length t <> d' -> cong p (simplicial_bd N (fun s => x ([], s)) t) 0).
  { intros d' r x t Hx Ht Hl. rewrite bd_sgn. apply Zsum_cong0. intros v _. destruct (memn v t) eqn:Ev; [reflexivity|]. apply memn_false in Ev.
    destruct (cong_dec p (x ([], insert_vertex v t)) 0) as [H|H]; [rewrite H; apply cong_eq; ring|]. destruct (Hx _ _ H) as [_ [(L & _) _]]. rewrite insert_length in L by auto. lia. }
  assert (offz : forall d' r x t s, D 0 d' r x -> t <> [] -> cong p (x (t, s)) 0).
  { intros d' r x t s Hx Ht. destruct (cong_dec p (x (t, s)) 0) as [H|H]; [exact H|]. destruct (Hx _ _ H) as [(L & _) _]. destruct t; [congruence|discriminate]. }
  revert HB. apply (barcode_rel p _ _ _ _ R).
  - intros r n c b b' u u' Hr H Hu Hu'. split; [apply (D_sub 0 d r n c b); [intros k Hk; apply H, Hk|intros i; apply ceq, Hu]|].
    intros s. rewrite (Hu ([], s)), (Hu' s). apply Zsum_cong. intros k Hk. destruct (H k Hk) as [_ E]. rewrite (E s). reflexivity.
  - intros r s u v Hrs [H1 H2]. split; [apply (D_mono _ _ r); [lia|exact H1]|exact H2].
  - intros r x Hr ((H1 & H2) & H3). exists (fun s => x ([], s)). split; [split; [exact H1|reflexivity]|]. split; [apply drop, H1|].
    intros _ t Ht _. specialize (H3 ([], t)). unfold dd in H3. cbn [fst snd] in H3. apply incb_ok in Ht. rewrite Ht in H3. apply ceq in H3. rewrite Z.mod_0_l in H3 by lia. exact H3.
  - intros r c Hr [H1 H2]. set (x := fun x : list nat * list nat => match fst x with [] => c (snd x) | _ => 0 end). assert (HD : D 0 d r x) by (apply lift; exact H1).
    exists x. split; [split; [exact HD|reflexivity]|]. split; [split; [exact HD|apply (dz d r), HD]|].
    intros [t s]. unfold dd. cbn [fst snd]. destruct (incb s) eqn:E; [|reflexivity]. apply incb_ok in E. destruct t as [|t0 t]; [|unfold x; cbn [fst snd]; rewrite bd_zero; reflexivity].
    destruct (Nat.eq_dec (length s) d) as [El|El]; [|apply (bdl d r x s HD E El)]. apply ceq. rewrite Z.mod_0_l by lia. apply H2; auto.
  - intros r x c Hr [HD E]. split.
    + intros (_ & w & [Hw _] & Ew). split.
      * intros s Hs. apply neq0 in Hs. apply (HD [] s). intros H. apply Hs. rewrite <- (E s). exact H.
      * exists (fun s => w ([], s)). split; [apply drop, Hw|]. intros t Ht _. apply ceq. rewrite <- (E t), <- (Ew ([], t)). unfold dd. cbn [fst snd]. apply incb_ok in Ht. rewrite Ht. reflexivity.
    + intros (H1 & w & Hw & Ew). split; [split; [exact HD|apply (dz d r), HD]|]. set (y := fun x : list nat * list nat => match fst x with [] => w (snd x) | _ => 0 end).
      assert (HY : D 0 (Datatypes.S d) r y) by (apply lift; exact Hw). exists y. split; [split; [exact HY|apply (dz (Datatypes.S d) r), HY]|].
      intros [t s]. unfold dd. cbn [fst snd]. destruct (incb s) eqn:Es.
      * apply incb_ok in Es. destruct t as [|t0 t].
        -- rewrite (E s). destruct (Nat.eq_dec (length s) (Datatypes.S d)) as [El|El]; [apply ceq; apply Ew; auto|]. rewrite (bdl (Datatypes.S d) r y s HY Es El). symmetry.
           destruct (cong_dec p (c s) 0) as [H|H]; [exact H|]. apply neq0 in H. destruct (H1 s H) as [(L & _) _]. lia.
        -- unfold y. cbn [fst snd]. rewrite bd_zero. symmetry. apply (offz d r); [exact HD|discriminate].
      * symmetry. destruct (cong_dec p (x (t, s)) 0) as [H|H]; [exact H|]. destruct (HD _ _ H) as [_ [(_ & I1 & _) _]]. apply incb_ok in I1. congruence.
Qed.

(** In degree [n], the second page of the double complex has the barcode of the cloud. *)
Theorem nerve_barcode n bars : (0 < n < m)%nat -> barcode p (E2z n) (E2b n) M bars ->
  barcode p (fun r => s_cycle p N (fun d => rips Dist d r) n) (fun r => s_bounds p N (fun d => rips Dist d r) n) M bars.
Proof.
  intros Hn H. apply rips_of_Zc; [|lia]. destruct n as [|n]; [lia|]. pose proof (chain_barcode n 0 bars) as HC. rewrite Nat.add_0_r in HC. apply HC; [lia|]. apply second_barcode; [lia|exact H].
Qed.
End Double.
