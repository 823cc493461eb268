(** * Repeated points do not change the barcode of the Rips filtration
    The point [k + 1] repeats the point [k]: chains are moved from the one to the other, and a cone with vertex [k] shows that this changes no class. *)
From Verif Require Import Base ListX SortX Lin Basis_model PH_model Simp_model Spec_Simp Simp_lists Simp_props Spec_PH Spec_Rips Spec_Bars Spec_MV Bars Bars_ends Rips_bd Rips_bars HP_perm Nerve_bd Nerve_alg
  Spec_Symm Rips_scale Rips_order.
From Coq Require Import Permutation Znumtheory Sorted.
Local Open Scope Z_scope.

Lemma cong_refl p a : cong p a a.
Proof. apply cong_eq. reflexivity. Qed.
Lemma cong_sym p a b : cong p a b -> cong p b a.
Proof. intros H. symmetry. exact H. Qed.
Lemma cong_trans p a b c : cong p a b -> cong p b c -> cong p a c.
Proof. intros H K. rewrite H. exact K. Qed.

Section Dup.
Variable k : nat.
Let n := S k.
Let N := S n.

(** The part of a chain on the simplices with the repeated point. *)
Definition part (c : list nat -> Z) (s : list nat) : Z := if memn n s then c s else 0.
Definition htpy (c : list nat -> Z) (s : list nat) : Z := if incb s then cone_at k (part c) s else 0.
Definition move (c : list nat -> Z) (s : list nat) : Z :=
  if incb s then if memn n s then 0 else c s + (if memn k s then c (insert_vertex n (without k s)) else 0) else 0.

Lemma sgn_next u : ~ In k u -> sgn n u = sgn k u.
Proof.
  intros H. unfold sgn. f_equal. f_equal. f_equal. apply filter_ext_in. intros x Hx. apply eq_true_iff_eq. rewrite !Nat.ltb_lt. assert (x <> k) by (intros ->; contradiction). unfold n. lia.
Qed.

Lemma bd_part c u : simplicial_bd N (part c) u = if memn n u then simplicial_bd N c u else sgn n u * c (insert_vertex n u).
Proof.
  destruct (memn n u) eqn:E.
  - rewrite !bd_sgn. apply Zsum_ext. intros v _. destruct (memn v u) eqn:Ev; [reflexivity|]. apply memn_false in Ev. unfold part. rewrite memn_insert, E, Bool.orb_true_r by exact Ev. reflexivity.
  - rewrite bd_sgn. rewrite (Zsum_single N n); [|unfold N; lia|].
    + rewrite E. apply memn_false in E. unfold part. rewrite memn_insert, Nat.eqb_refl by exact E. reflexivity.
    + intros v _ Hv. destruct (memn v u) eqn:Ev; [reflexivity|]. apply memn_false in Ev. unfold part. rewrite memn_insert, E by exact Ev.
      replace (Nat.eqb n v) with false by (symmetry; apply Nat.eqb_neq; auto). cbn [orb]. ring.
Qed.

(** What is moved differs by a boundary. *)
Lemma move_htpy c t : increasing t -> move c t = c t - simplicial_bd N (htpy c) t - htpy (simplicial_bd N c) t.
Proof.
  intros Ht. assert (It : incb t = true) by (apply incb_ok; exact Ht).
  rewrite (bd_ext N (htpy c) (cone_at k (part c)) t Ht) by (intros s Hs; unfold htpy; rewrite (proj2 (incb_ok s) Hs); reflexivity).
  pose proof (cone_bd N k (part c) t ltac:(unfold N, n; lia) Ht) as C. unfold move, htpy. rewrite It. unfold cone_at at 2.
  rewrite bd_part in C. set (u := without k t) in *. assert (Hk : ~ In k u) by (unfold u; rewrite without_In; tauto).
  assert (Eu : memn n u = memn n t) by (apply eq_true_iff_eq; rewrite !memn_In; unfold u; rewrite without_In; unfold n; intuition lia).
  unfold part in C at 2. unfold part at 2. rewrite Eu in *. destruct (memn n t) eqn:En.
  - destruct (memn k t); lia.
  - destruct (memn k t); [|lia]. rewrite sgn_next in C by exact Hk. rewrite Z.mul_assoc, sgn_sq in C. lia.
Qed.

Lemma htpy_zero c t : (forall u, increasing u -> c u = 0) -> htpy c t = 0.
Proof.
  intros H. unfold htpy. destruct (incb t) eqn:E; [|reflexivity]. unfold cone_at. destruct (memn k t); [|reflexivity]. unfold part. destruct (memn n _); [|ring].
  rewrite H by (apply without_increasing, incb_ok; exact E). ring.
Qed.

Lemma bd_sub3 M a b c t : simplicial_bd M (fun s => a s - b s - c s) t = simplicial_bd M a t - simplicial_bd M b t - simplicial_bd M c t.
Proof. rewrite !bd_sgn, <- !Zsum_sub. apply Zsum_ext. intros v _. destruct (memn v t); ring. Qed.

Lemma bd_move c t : increasing t -> simplicial_bd N (move c) t = move (simplicial_bd N c) t.
Proof.
  intros Ht. rewrite (bd_ext N (move c) _ t Ht (move_htpy c)). rewrite bd_sub3, (bd_bd N (htpy c) t Ht). rewrite move_htpy by exact Ht.
  rewrite (htpy_zero (simplicial_bd N (simplicial_bd N c))) by (intros u Hu; apply bd_bd; exact Hu). lia.
Qed.

(** ** Chains, cycles and boundaries *)
Variable p : Z.
Hypothesis Hp : prime p.
Let p1 : 1 < p. Proof. destruct Hp; lia. Qed.

Lemma ceq a b : cong p a b <-> a mod p = b mod p.
Proof. apply cong_iff_mod. lia. Qed.

Lemma c0 a : cong p a 0 <-> a mod p = 0.
Proof. rewrite ceq, Z.mod_0_l by lia. tauto. Qed.

Lemma move_cong a b s : (forall x, increasing x -> length x = length s -> cong p (a x) (b x)) -> cong p (move a s) (move b s).
Proof.
  intros H. unfold move. destruct (incb s) eqn:E; [|apply cong_refl]. apply incb_ok in E. destruct (memn n s) eqn:En; [apply cong_refl|].
  apply cong_add; [apply H; auto|]. destruct (memn k s) eqn:Ek; [|apply cong_refl]. apply memn_In in Ek. apply memn_false in En.
  assert (W : increasing (without k s)) by (apply without_increasing; exact E). assert (W' : ~ In n (without k s)) by (rewrite without_In; tauto).
  apply H; [apply insert_increasing; assumption|]. rewrite insert_length by assumption.
  transitivity (length (insert_vertex k (without k s))); [|rewrite insert_without; auto]. rewrite insert_length; [reflexivity|exact W|]. rewrite without_In. tauto.
Qed.

Section Move.
Variables K1 K2 : nat -> list nat -> Prop.
Hypothesis K12 : forall d s, K1 d s -> K2 d s.
Hypothesis K1n : forall d s v, K1 d s -> In v s -> (v < n)%nat.
Hypothesis K2i : forall d s, K2 d s -> increasing s.
Hypothesis K21 : forall d s, K2 d s -> ~ In n s -> K1 d s.
Hypothesis Kmove : forall d s, increasing s -> ~ In n s -> In k s -> K2 d (insert_vertex n (without k s)) -> K1 d s.
Hypothesis Kcone : forall d s, K2 d s -> In n s -> ~ In k s -> K2 (S d) (insert_vertex k s).

Lemma bd_last d c t : s_chain p K1 d c -> cong p (simplicial_bd N c t) (simplicial_bd n c t).
Proof.
  intros H. rewrite !bd_sgn. unfold N. cbn [Zsum]. replace (Zsum n _) with (Zsum n (fun v => if memn v t then 0 else sgn v t * c (insert_vertex v t)) + 0) at 2 by lia.
  apply cong_add; [apply cong_refl|]. destruct (memn n t) eqn:E; [apply cong_refl|]. apply memn_false in E.
  assert (X : cong p (c (insert_vertex n t)) 0).
  { apply c0. destruct (Z.eq_dec (c (insert_vertex n t) mod p) 0) as [|Ne]; [assumption|]. apply H in Ne. apply K1n with (v := n) in Ne; [lia|]. apply insert_In; auto. }
  destruct X as [q X]. exists (sgn n t * q). nia.
Qed.

Lemma up_chain d c : s_chain p K1 d c -> s_chain p K2 d c.
Proof. intros H s Hs. apply K12, H, Hs. Qed.

Lemma up_cycle d c : s_cycle p n K1 d c -> s_cycle p N K2 d c.
Proof. intros [H1 H2]. split; [apply up_chain, H1|]. intros Hd t Ht L. apply c0. eapply cong_trans; [apply (bd_last d), H1|]. apply c0. auto. Qed.

Lemma up_bounds d c : s_bounds p n K1 d c -> s_bounds p N K2 d c.
Proof.
  intros [H1 (w & W & H2)]. split; [apply up_chain, H1|]. exists w. split; [apply up_chain, W|]. intros t Ht L. apply ceq. eapply cong_trans; [apply (bd_last (S d)), W|]. apply ceq. auto.
Qed.

Lemma move_chain d c : s_chain p K2 d c -> s_chain p K1 d (move c).
Proof.
  intros H s Hs. unfold move in Hs. destruct (incb s) eqn:E; [|elim Hs; apply Z.mod_0_l; lia]. apply incb_ok in E. destruct (memn n s) eqn:En; [elim Hs; apply Z.mod_0_l; lia|]. apply memn_false in En.
  destruct (Z.eq_dec (c s mod p) 0) as [Z0|Ne]; [|apply K21; [apply H; exact Ne|exact En]]. destruct (memn k s) eqn:Ek; [|rewrite Z.add_0_r in Hs; contradiction]. apply memn_In in Ek.
  apply Kmove; try assumption. apply H. intros E0. apply Hs. rewrite Zplus_mod, Z0, E0. apply Z.mod_0_l. lia.
Qed.

Lemma htpy_chain d c : s_chain p K2 d c -> s_chain p K2 (S d) (htpy c).
Proof.
  intros H s Hs. unfold htpy in Hs. destruct (incb s) eqn:E; [|elim Hs; apply Z.mod_0_l; lia]. apply incb_ok in E. unfold cone_at in Hs. destruct (memn k s) eqn:Ek; [|elim Hs; apply Z.mod_0_l; lia].
  apply memn_In in Ek. unfold part in Hs. destruct (memn n (without k s)) eqn:En; [|rewrite Z.mul_0_r in Hs; elim Hs; apply Z.mod_0_l; lia]. apply memn_In in En.
  rewrite <- (insert_without k s E Ek). apply Kcone; [|exact En|rewrite without_In; tauto]. apply H. intros E0. apply Hs. rewrite Zmult_mod, E0, Z.mul_0_r. apply Z.mod_0_l. lia.
Qed.

Lemma move_cycle d c : s_cycle p N K2 d c -> s_cycle p n K1 d (move c).
Proof.
  intros [H1 H2]. split; [apply move_chain, H1|]. intros Hd t Ht L. apply c0. eapply cong_trans; [apply cong_sym, (bd_last d), move_chain, H1|]. rewrite bd_move by exact Ht.
  assert (Z0 : move (fun _ => 0) t = 0) by (unfold move; destruct (incb t), (memn n t), (memn k t); reflexivity). rewrite <- Z0.
  apply move_cong. intros x Hx Lx. apply c0. apply H2; [exact Hd|exact Hx|lia].
Qed.

(** A chain without the repeated point stays as it is. *)
Lemma move_same d c s : s_chain p K1 d c -> cong p (move c s) (c s).
Proof.
  intros H. assert (Z0 : forall x, (increasing x -> In n x) -> cong p (c x) 0).
  { intros x Hx. apply c0. destruct (Z.eq_dec (c x mod p) 0) as [|Ne]; [assumption|]. apply H in Ne. pose proof (K2i _ _ (K12 _ _ Ne)) as I. apply K1n with (v := n) in Ne; [lia|auto]. }
  unfold move. destruct (incb s) eqn:E.
  - apply incb_ok in E. destruct (memn n s) eqn:En; [apply cong_sym, Z0; intros _; apply memn_In; exact En|]. apply memn_false in En. destruct (memn k s); [|rewrite Z.add_0_r; apply cong_refl].
    replace (c s) with (c s + 0) at 2 by lia. apply cong_add; [apply cong_refl|]. apply Z0. intros _. apply insert_In; [rewrite without_In; tauto|auto].
  - apply cong_sym, Z0. intros I. apply incb_ok in I. congruence.
Qed.

Lemma move_bounds d c : s_chain p K1 d c -> s_bounds p N K2 d c -> s_bounds p n K1 d c.
Proof.
  intros H1 [_ (w & W & H2)]. split; [exact H1|]. exists (move w). split; [apply move_chain, W|]. intros t Ht L. apply ceq.
  eapply cong_trans; [apply cong_sym, (bd_last (S d)), move_chain, W|]. rewrite bd_move by exact Ht. eapply cong_trans; [|apply (move_same d), H1].
  apply move_cong. intros x Hx Lx. apply ceq. apply H2; [exact Hx|lia].
Qed.

Lemma move_class d c : s_cycle p N K2 d c -> s_bounds p N K2 d (fun s => c s - move c s).
Proof.
  intros [H1 H2]. split.
  - intros s Hs. destruct (Z.eq_dec (c s mod p) 0) as [Z0|Ne]; [|apply H1; exact Ne]. apply K12. apply (move_chain d c H1). intros E0. apply Hs. rewrite Zminus_mod, Z0, E0. apply Z.mod_0_l. lia.
  - exists (htpy c). split; [apply htpy_chain, H1|]. intros t Ht L. apply ceq. rewrite move_htpy by exact Ht.
    assert (X : cong p (htpy (simplicial_bd N c) t) 0).
    { unfold htpy. rewrite (proj2 (incb_ok t) Ht). unfold cone_at. destruct (memn k t) eqn:Ek; [|apply cong_refl]. apply memn_In in Ek. unfold part. destruct (memn n _) eqn:En; [|rewrite Z.mul_0_r; apply cong_refl].
      assert (Q : cong p (simplicial_bd N c (without k t)) 0).
      { apply c0. assert (Lw : length (without k t) = d).
        { assert (W : increasing (without k t)) by (apply without_increasing; exact Ht). rewrite <- (insert_without k t Ht Ek) in L. rewrite insert_length in L; [lia|exact W|]. rewrite without_In. tauto. }
        apply H2; [|apply without_increasing; exact Ht|exact Lw]. apply memn_In in En. destruct (without k t); [contradiction|]. cbn in Lw. lia. }
      destruct Q as [q Q]. exists (sgn k (without k t) * q). nia. }
    destruct X as [q X]. exists (- q). lia.
Qed.
End Move.

Lemma dup_barcode (K1 K2 : Z -> nat -> list nat -> Prop) M d bars :
  (forall r e s, K1 r e s -> K2 r e s) -> (forall r e s v, K1 r e s -> In v s -> (v < n)%nat) -> (forall r e s, K2 r e s -> increasing s) ->
  (forall r e s, K2 r e s -> ~ In n s -> K1 r e s) -> (forall r e s, increasing s -> ~ In n s -> In k s -> K2 r e (insert_vertex n (without k s)) -> K1 r e s) ->
  (forall r e s, K2 r e s -> In n s -> ~ In k s -> K2 r (S e) (insert_vertex k s)) ->
  (forall r r' e s, r <= r' -> K1 r e s -> K1 r' e s) -> (forall r r' e s, r <= r' -> K2 r e s -> K2 r' e s) ->
  barcode p (fun r => s_cycle p n (K1 r) d) (fun r => s_bounds p n (K1 r) d) M bars -> barcode p (fun r => s_cycle p N (K2 r) d) (fun r => s_bounds p N (K2 r) d) M bars.
Proof.
  intros A1 A2 A3 A4 A5 A6 M1 M2.
  apply (barcode_map p _ _ _ _ (fun c => c) M bars Hp).
  - intros r _. apply s_cycle_sub. exact p1.
  - intros r _. apply s_bounds_sub. exact p1.
  - intros r s v [L _]. apply s_cycle_mono. intros e x. apply M1. exact L.
  - intros r s v [L _]. apply s_bounds_mono. intros e x. apply M2. exact L.
  - intros m c b i. apply cong_refl.
  - auto.
  - intros r v _ H. apply (up_cycle (K1 r) (K2 r)); first [exact (A1 r) | exact (A2 r) | exact (A3 r) | exact (A4 r) | exact (A5 r) | exact (A6 r) | assumption].
  - intros r v _ H. apply (up_bounds (K1 r) (K2 r)); first [exact (A1 r) | exact (A2 r) | exact (A3 r) | exact (A4 r) | exact (A5 r) | exact (A6 r) | assumption].
  - intros r v _ [HZ _] HB. apply (move_bounds (K1 r) (K2 r)); first [exact (A1 r) | exact (A2 r) | exact (A3 r) | exact (A4 r) | exact (A5 r) | exact (A6 r) | assumption].
  - intros r w _ H. exists (move w). split; [apply (move_cycle (K1 r) (K2 r))|apply (move_class (K1 r) (K2 r))]; first [exact (A1 r) | exact (A2 r) | exact (A3 r) | exact (A4 r) | exact (A5 r) | exact (A6 r) | assumption].
Qed.
End Dup.

(** ** One point twice at the end of the list *)
Section Twice.
Variables (Dist : list (list Z)) (a : list nat) (x : nat).
Hypothesis Hx : dist Dist x x = 0.
Let k := length a.
Let l1 := a ++ [x].
Let l2 := a ++ [x; x].

Lemma len1 : length l1 = S k.
Proof. unfold l1, k. rewrite app_length. cbn. lia. Qed.
Lemma len2 : length l2 = S (S k).
Proof. unfold l2, k. rewrite app_length. cbn. lia. Qed.

Lemma dup_old u v : (u < S k)%nat -> (v < S k)%nat -> dist (dist_of Dist l2) u v = dist (dist_of Dist l1) u v.
Proof.
  intros Hu Hv. rewrite !dist_of_at by (rewrite ?len1, ?len2; lia).
  assert (E : forall i, (i < S k)%nat -> nth i l2 0%nat = nth i l1 0%nat).
  { intros i Hi. unfold l1, l2. destruct (Nat.lt_ge_cases i k) as [L|L]; [rewrite !app_nth1 by exact L; reflexivity|]. rewrite !app_nth2 by exact L. fold k. replace (i - k)%nat with 0%nat by lia. reflexivity. }
  rewrite !E by assumption. reflexivity.
Qed.

Lemma dup_at i : (i = k \/ i = S k)%nat -> nth i l2 0%nat = x.
Proof. intros [->| ->]; unfold l2; rewrite app_nth2 by (fold k; lia); fold k; [rewrite Nat.sub_diag; reflexivity|]. replace (S k - k)%nat with 1%nat by lia. reflexivity. Qed.

Lemma dup_new u : (u < S k)%nat -> dist (dist_of Dist l2) u (S k) = dist (dist_of Dist l2) u k.
Proof. intros Hu. rewrite !dist_of_at by (rewrite len2; lia). rewrite (dup_at (S k)), (dup_at k) by auto. reflexivity. Qed.

Lemma dup_self : dist (dist_of Dist l2) k (S k) = 0.
Proof. rewrite !dist_of_at by (rewrite len2; lia). rewrite (dup_at (S k)), (dup_at k) by auto. exact Hx. Qed.

Lemma twice_barcode p M d bars : prime p -> rips_barcode p (dist_of Dist l1) M d bars -> rips_barcode p (dist_of Dist l2) M d bars.
Proof.
  intros Hp. unfold rips_barcode. rewrite !dist_of_length, len1, len2.
  apply (dup_barcode k p Hp (fun r e => rips (dist_of Dist l1) e r) (fun r e => rips (dist_of Dist l2) e r)).
  - intros r e s [(L & I & V & A) R]. rewrite dist_of_length, len1 in V. split; [|exact R]. rewrite dist_of_length, len2. split; [exact L|split; [exact I|split; [intros v Hv; specialize (V v Hv); lia|]]].
    intros u v Hu Hv Luv. rewrite dup_old by auto. auto.
  - intros r e s v [(_ & _ & V & _) _] Hv. rewrite dist_of_length, len1 in V. auto.
  - intros r e s [(_ & I & _) _]. exact I.
  - intros r e s [(L & I & V & A) R] Hn. rewrite dist_of_length, len2 in V.
    assert (V' : forall v, In v s -> (v < S k)%nat) by (intros v Hv; pose proof (V v Hv); assert (v <> S k) by (intros ->; contradiction); lia).
    split; [|exact R]. rewrite dist_of_length, len1. split; [exact L|split; [exact I|split; [exact V'|]]]. intros u v Hu Hv Luv. rewrite <- dup_old by auto. auto.
  - intros r e s I Hn Hk [(L & _ & V & A) R]. rewrite dist_of_length, len2 in V.
    assert (W : increasing (without k s)) by (apply without_increasing; exact I). assert (W' : ~ In (S k) (without k s)) by (rewrite without_In; tauto).
    assert (IN : forall v, In v s -> v <> k -> In v (insert_vertex (S k) (without k s))) by (intros v Hv Ne; apply insert_In; [exact W'|]; rewrite without_In; auto).
    assert (INn : In (S k) (insert_vertex (S k) (without k s))) by (apply insert_In; auto).
    assert (V' : forall v, In v s -> (v < S k)%nat).
    { intros v Hv. destruct (Nat.eq_dec v k) as [->|Ne]; [lia|]. specialize (V v (IN v Hv Ne)). assert (v <> S k) by (intros ->; contradiction). lia. }
    split; [|exact R]. rewrite dist_of_length, len1. split; [|split; [exact I|split; [exact V'|]]].
    + rewrite insert_length in L by assumption. rewrite <- (insert_without k s I Hk), insert_length; [exact L|exact W|]. rewrite without_In. tauto.
    + intros u v Hu Hv Luv. pose proof (V' u Hu) as Bu. pose proof (V' v Hv) as Bv. rewrite <- dup_old by assumption. assert (Nu : u <> k) by lia. destruct (Nat.eq_dec v k) as [->|Ne].
      * rewrite <- dup_new by exact Bu. apply A; [apply IN; assumption|exact INn|lia].
      * apply A; [apply IN; assumption|apply IN; assumption|exact Luv].
  - intros r e s [(L & I & V & A) R] Hn Hk. rewrite dist_of_length, len2 in V. split; [|exact R]. rewrite dist_of_length, len2.
    split; [rewrite insert_length by assumption; lia|split; [apply insert_increasing; assumption|split]].
    + intros v Hv. apply insert_In in Hv; [|exact Hk]. destruct Hv as [->|Hv]; [lia|auto].
    + intros u v Hu Hv Luv. apply insert_In in Hu; [|exact Hk]. apply insert_In in Hv; [|exact Hk]. destruct Hu as [->|Hu], Hv as [->|Hv]; [lia| | |auto].
      * specialize (V v Hv). replace v with (S k) by lia. rewrite dup_self. exact R.
      * rewrite <- dup_new by lia. apply A; [exact Hu|exact Hn|lia].
  - intros r r' e s H. apply rips_mono. exact H.
  - intros r r' e s H. apply rips_mono. exact H.
Qed.
End Twice.

(** ** Any list in which every point occurs *)
Lemma more_barcode p Dist M d bars e : prime p -> forall l, (forall u v, In u l -> In v l -> dist Dist u v = dist Dist v u) -> (forall u, In u l -> dist Dist u u = 0) -> incl e l ->
  rips_barcode p (dist_of Dist l) M d bars -> rips_barcode p (dist_of Dist (l ++ e)) M d bars.
Proof.
  intros Hp. induction e as [|x e IH]; intros l Hs H0 Hi HB; [rewrite app_nil_r; exact HB|].
  assert (Hx : In x l) by (apply Hi; left; reflexivity). destruct (in_split x l Hx) as (b & c & E).
  assert (P : Permutation l ((b ++ c) ++ [x])).
  { rewrite E. rewrite <- app_assoc. apply Permutation_app_head. apply Permutation_cons_append. }
  assert (P2 : Permutation ((b ++ c) ++ [x; x]) (l ++ [x])).
  { change [x; x] with ([x] ++ [x]). rewrite app_assoc. apply Permutation_app_tail, Permutation_sym, P. }
  assert (S2 : forall u, In u (l ++ [x]) -> In u l) by (intros u Hu; apply in_app_or in Hu; destruct Hu as [Hu|[<-|[]]]; assumption).
  replace (l ++ x :: e) with ((l ++ [x]) ++ e) by (rewrite <- app_assoc; reflexivity). apply IH.
  - intros u v Hu Hv. apply Hs; apply S2; assumption.
  - intros u Hu. apply H0, S2, Hu.
  - intros u Hu. apply in_or_app. left. apply Hi. right. exact Hu.
  - apply (order_barcode p Dist M d bars _ _ Hp P2).
    + intros u v Hu Hv. apply Hs; apply S2; apply (Permutation_in _ P2); assumption.
    + apply twice_barcode; [apply H0; exact Hx|exact Hp|]. apply (order_barcode p Dist M d bars _ _ Hp P Hs HB).
Qed.

Lemma rest_of (s l : list nat) : NoDup s -> incl s l -> exists e, Permutation (s ++ e) l.
Proof.
  revert l. induction s as [|a s IH]; intros l HN HI; [exists l; reflexivity|]. inversion HN as [|y m Ha HN']; subst.
  destruct (in_split a l (HI a (or_introl eq_refl))) as (b & c & ->).
  destruct (IH (b ++ c) HN') as (e & He).
  - intros x Hx. specialize (HI x (or_intror Hx)). apply in_app_or in HI. apply in_or_app. destruct HI as [H|[->|H]]; [auto|contradiction|auto].
  - exists e. cbn. apply Permutation_cons_app. exact He.
Qed.

Theorem rips_repeat p l Dist Dist' M d bars : prime p -> symmetric Dist -> (forall u, (u < length Dist)%nat -> dist Dist u u = 0) -> repeated l Dist Dist' ->
  rips_barcode p Dist M d bars -> rips_barcode p Dist' M d bars.
Proof.
  intros Hp Hs H0 (HL & HI & HD) HB.
  assert (HN : incl (seq 0 (length Dist)) l) by (intros v Hv; apply in_seq in Hv; apply HI; lia).
  destruct (rest_of _ l (seq_NoDup _ _) HN) as (e & He).
  assert (Hl : forall v, In v l -> In v (seq 0 (length Dist))) by (intros v Hv; apply in_seq; apply HI in Hv; lia).
  apply (rips_same p (dist_of Dist l)); [rewrite dist_of_length; exact HL|intros u v H; rewrite dist_of_length in H; rewrite dist_of_at by lia; apply HD; exact H|].
  apply (order_barcode p Dist M d bars _ _ Hp He).
  - intros u v Hu Hv. apply (Permutation_in _ He) in Hu, Hv. apply Hl, in_seq in Hu. apply Hl, in_seq in Hv. apply Hs; lia.
  - apply more_barcode; [exact Hp| | | |].
    + intros u v Hu Hv. apply in_seq in Hu. apply in_seq in Hv. apply Hs; lia.
    + intros u Hu. apply in_seq in Hu. apply H0. lia.
    + intros u Hu. apply Hl, (Permutation_in _ He), in_or_app. right. exact Hu.
    + apply (rips_same p Dist); [rewrite dist_of_length, seq_length; reflexivity| |exact HB]. intros u v H. rewrite dist_of_at by (rewrite seq_length; lia). rewrite !seq_nth by lia. reflexivity.
Qed.
