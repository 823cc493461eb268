(** * The barcode of the Rips filtration does not depend on the order of the points
    Two neighbours [k] and [k + 1] are exchanged; a simplex which has both of them is reversed. *)
From Verif Require Import Base ListX Lin Basis_model PH_model Simp_model Spec_Simp Simp_lists Simp_props Spec_PH Spec_Rips Spec_Bars Spec_MV Bars Bars_ends Rips_bd Rips_bars HP_perm Nerve_bd Spec_Symm Rips_scale.
From Coq Require Import Permutation Znumtheory Sorted.
Local Open Scope Z_scope.

Section Swap.
Variable k : nat.

Definition sw (v : nat) : nat := if Nat.eqb v k then Datatypes.S k else if Nat.eqb v (Datatypes.S k) then k else v.
Definition both (s : list nat) : bool := memn k s && memn (Datatypes.S k) s.
Definition img (s : list nat) : list nat := if both s then s else map sw s.
Definition turn (c : list nat -> Z) (s : list nat) : Z := if both s then - c s else c (map sw s).

Ltac sws := unfold sw in *; repeat match goal with |- context [Nat.eqb ?a ?b] => destruct (Nat.eqb_spec a b) | H : context [Nat.eqb ?a ?b] |- _ => destruct (Nat.eqb_spec a b) end; subst.

Lemma sw_sw v : sw (sw v) = v.
Proof. sws; lia. Qed.

Lemma sw_map s : map sw (map sw s) = s.
Proof. rewrite map_map. rewrite <- (map_id s) at 2. apply map_ext. exact sw_sw. Qed.

Lemma sw_in v s : In (sw v) (map sw s) <-> In v s.
Proof.
  split.
  - intros H. apply in_map_iff in H. destruct H as (u & E & H). rewrite <- (sw_sw v), <- E, sw_sw. exact H.
  - apply in_map.
Qed.

Lemma sw_in' v s : In v (map sw s) <-> In (sw v) s.
Proof. rewrite <- (sw_sw v) at 1. apply sw_in. Qed.

Lemma both_in s : both s = true <-> In k s /\ In (Datatypes.S k) s.
Proof. unfold both. rewrite andb_true_iff, !memn_In. tauto. Qed.

Lemma sw_k : sw k = Datatypes.S k.
Proof. sws; lia. Qed.
Lemma sw_Sk : sw (Datatypes.S k) = k.
Proof. sws; lia. Qed.

Lemma both_map s : both (map sw s) = both s.
Proof. apply eq_true_iff_eq. rewrite !both_in, !sw_in', sw_k, sw_Sk. tauto. Qed.

Lemma img_img s : img (img s) = s.
Proof. unfold img. destruct (both s) eqn:E; [rewrite E; reflexivity|]. rewrite both_map, E. apply sw_map. Qed.

Lemma turn_turn c s : turn (turn c) s = c s.
Proof. unfold turn. destruct (both s) eqn:E; [lia|]. rewrite both_map, E, sw_map. reflexivity. Qed.

Lemma sw_lt u v : (u < v)%nat -> ~ (u = k /\ v = Datatypes.S k) -> (sw u < sw v)%nat.
Proof. intros H N. sws; lia. Qed.

Lemma sw_increasing s : increasing s -> both s = false -> increasing (map sw s).
Proof.
  intros H N. assert (N' : ~ (In k s /\ In (Datatypes.S k) s)) by (rewrite <- both_in, N; discriminate). clear N. unfold increasing in *. induction H as [|a s Hs IH F]; [constructor|]. cbn. constructor.
  - apply IH. intros [A B]. apply N'. split; right; assumption.
  - rewrite Forall_forall in F. apply Forall_forall. intros x Hx. apply in_map_iff in Hx. destruct Hx as (v & <- & Hv). apply sw_lt; [apply F; exact Hv|].
    intros [-> ->]. apply N'. split; [left; reflexivity|right; exact Hv].
Qed.

Lemma img_length s : length (img s) = length s.
Proof. unfold img. destruct (both s); [reflexivity|apply map_length]. Qed.

Lemma img_increasing s : increasing s -> increasing (img s).
Proof. intros H. unfold img. destruct (both s) eqn:E; [exact H|apply sw_increasing; assumption]. Qed.

Lemma img_in v s : In v (img s) -> In (sw v) s.
Proof.
  unfold img. destruct (both s) eqn:E; [|apply sw_in']. apply both_in in E. destruct E as [A B]. intros H. sws; auto.
Qed.

(** ** Signs *)
Lemma filter_map_length {A B} (g : A -> B) (f : B -> bool) l : length (filter f (map g l)) = length (filter (fun x => f (g x)) l).
Proof. induction l as [|x l IH]; [reflexivity|]. cbn. destruct (f (g x)); cbn; rewrite IH; reflexivity. Qed.

Lemma filter_more (f g : nat -> bool) a l : NoDup l -> In a l -> g a = false -> f a = true -> (forall u, In u l -> u <> a -> f u = g u) ->
  length (filter f l) = Datatypes.S (length (filter g l)).
Proof.
  intros HN Ha Hg Hf H. induction l as [|x l IH]; [contradiction|]. inversion HN as [|y m Hx HN']; subst. cbn. destruct (Nat.eq_dec x a) as [->|Ne].
  - rewrite Hf, Hg. cbn. f_equal. f_equal. apply filter_ext_in. intros u Hu. apply H; [right; exact Hu|]. intros ->. contradiction.
  - destruct Ha as [->|Ha]; [contradiction|]. rewrite (H x (or_introl eq_refl) Ne). specialize (IH HN' Ha (fun u Hu => H u (or_intror Hu))). destruct (g x); cbn; rewrite IH; reflexivity.
Qed.

Lemma sgn_turn v t : increasing t -> both t = false -> ~ In v t -> both (insert_vertex v t) = true -> sgn (sw v) (map sw t) = - sgn v t.
Proof.
  intros Ht N Hv HB. pose proof (increasing_NoDup _ Ht) as ND. unfold sgn. rewrite filter_map_length. apply both_in in HB. rewrite !insert_In in HB by exact Hv. destruct HB as [A B].
  destruct A as [<-|A].
  - destruct B as [B|B]; [lia|]. rewrite sw_k.
    rewrite (filter_more (fun x => Nat.ltb (sw x) (Datatypes.S k)) (fun u => Nat.ltb u k) (Datatypes.S k) t ND B).
    + rewrite Nat2Z.inj_succ, Z.pow_succ_r by lia. lia.
    + apply Nat.ltb_ge. lia.
    + rewrite sw_Sk. apply Nat.ltb_lt. lia.
    + intros u Hu Ne. assert (u <> k) by (intros ->; contradiction). apply eq_true_iff_eq. rewrite !Nat.ltb_lt. sws; lia.
  - destruct B as [<-|B]; [|exfalso; assert (both t = true) by (apply both_in; auto); congruence]. rewrite sw_Sk.
    rewrite (filter_more (fun u => Nat.ltb u (Datatypes.S k)) (fun x => Nat.ltb (sw x) k) k t ND A).
    + rewrite Nat2Z.inj_succ, Z.pow_succ_r by lia. lia.
    + rewrite sw_k. apply Nat.ltb_ge. lia.
    + apply Nat.ltb_lt. lia.
    + intros u Hu Ne. assert (u <> Datatypes.S k) by (intros ->; contradiction). apply eq_true_iff_eq. rewrite !Nat.ltb_lt. sws; lia.
Qed.

Lemma sgn_keep v t : ~ In v t -> both (insert_vertex v t) = false -> sgn (sw v) (map sw t) = sgn v t.
Proof.
  intros Hv N. assert (N' : ~ (In k (insert_vertex v t) /\ In (Datatypes.S k) (insert_vertex v t))) by (rewrite <- both_in, N; discriminate). rewrite !insert_In in N' by exact Hv.
  unfold sgn. rewrite filter_map_length. f_equal. f_equal. f_equal. apply filter_ext_in. intros u Hu.
  apply eq_true_iff_eq. rewrite !Nat.ltb_lt. assert (u <> v) by (intros ->; contradiction).
  assert (~ (u = k /\ v = Datatypes.S k)) by (intros [-> ->]; tauto). assert (~ (v = k /\ u = Datatypes.S k)) by (intros [-> ->]; tauto). sws; lia.
Qed.

Lemma insert_keep v t : increasing t -> ~ In v t -> both (insert_vertex v t) = false -> insert_vertex (sw v) (map sw t) = map sw (insert_vertex v t).
Proof.
  intros Ht Hv N. assert (Nt : both t = false).
  { destruct (both t) eqn:E; [|reflexivity]. rewrite <- N. symmetry. apply both_in. apply both_in in E. rewrite !insert_In by exact Hv. tauto. }
  assert (Hv' : ~ In (sw v) (map sw t)) by (rewrite sw_in; exact Hv).
  apply increasing_ext; [apply insert_increasing; [apply sw_increasing; assumption|exact Hv']|apply sw_increasing; [apply insert_increasing; assumption|exact N]|].
  intros x. rewrite insert_In by exact Hv'. rewrite !sw_in', insert_In by exact Hv. split; (intros [E|H]; [left|right; exact H]); [rewrite E; apply sw_sw|rewrite <- E; symmetry; apply sw_sw].
Qed.

Lemma insert_turn v t : increasing t -> both t = false -> ~ In v t -> both (insert_vertex v t) = true -> insert_vertex (sw v) (map sw t) = insert_vertex v t.
Proof.
  intros Ht N Hv HB. assert (Hv' : ~ In (sw v) (map sw t)) by (rewrite sw_in; exact Hv).
  apply increasing_ext; [apply insert_increasing; [apply sw_increasing; assumption|exact Hv']|apply insert_increasing; assumption|].
  intros x. rewrite insert_In by exact Hv'. rewrite sw_in'. apply both_in in HB. rewrite !insert_In in HB by exact Hv. rewrite insert_In by exact Hv.
  assert (N' : ~ (In k t /\ In (Datatypes.S k) t)) by (rewrite <- both_in, N; discriminate).
  destruct HB as [[A|A] [B|B]]; try (subst v; lia); try tauto.
  - subst v. rewrite sw_k. split.
    + intros [->|H]; [right; exact B|]. sws; auto.
    + intros [->|H]; [rewrite sw_k; right; exact B|]. destruct (Nat.eq_dec x (Datatypes.S k)) as [->|]; [left; reflexivity|]. right. assert (x <> k) by (intros ->; tauto). sws; tauto.
  - subst v. rewrite sw_Sk. split.
    + intros [->|H]; [right; exact A|]. sws; auto.
    + intros [->|H]; [rewrite sw_Sk; right; exact A|]. destruct (Nat.eq_dec x k) as [->|]; [left; reflexivity|]. right. assert (x <> Datatypes.S k) by (intros ->; tauto). sws; tauto.
Qed.

(** ** The boundary *)
Variable n : nat.
Hypothesis Hk : (Datatypes.S k < n)%nat.

Lemma sw_bound v : (v < n)%nat -> (sw v < n)%nat.
Proof. intros H. sws; lia. Qed.

Lemma Zsum_sw f : Zsum n f = Zsum n (fun v => f (sw v)).
Proof.
  rewrite (Zsum_perm n f (map sw (seq 0 n))).
  - apply Zsum_ext. intros v Hv. f_equal. rewrite (nth_indep _ 0%nat (sw 0%nat)) by (rewrite map_length, seq_length; exact Hv). rewrite map_nth, seq_nth by exact Hv. reflexivity.
  - apply NoDup_Permutation.
    + apply seq_NoDup.
    + apply FinFun.Injective_map_NoDup; [|apply seq_NoDup]. intros a b E. rewrite <- (sw_sw a), E. apply sw_sw.
    + intros x. rewrite sw_in', !in_seq. split; intros [_ H]; (split; [lia|]); apply sw_bound in H; [exact H|rewrite sw_sw in H; exact H].
Qed.

Lemma bd_turn c t : increasing t -> simplicial_bd n (turn c) t = turn (simplicial_bd n c) t.
Proof.
  intros Ht. unfold turn at 2. destruct (both t) eqn:E.
  - rewrite !bd_sgn, <- Zsum_opp. apply Zsum_ext. intros v _. destruct (memn v t) eqn:M; [reflexivity|]. unfold turn.
    assert (Hv : ~ In v t) by (rewrite <- memn_In, M; discriminate).
    replace (both (insert_vertex v t)) with true; [lia|]. symmetry. apply both_in. apply both_in in E. rewrite !insert_In by exact Hv. tauto.
  - rewrite !bd_sgn. rewrite (Zsum_sw (fun v => if memn v (map sw t) then 0 else _)). apply Zsum_ext. intros v _.
    replace (memn (sw v) (map sw t)) with (memn v t) by (apply eq_true_iff_eq; rewrite !memn_In, sw_in; tauto).
    destruct (memn v t) eqn:M; [reflexivity|]. assert (Hv : ~ In v t) by (rewrite <- memn_In, M; discriminate). unfold turn.
    destruct (both (insert_vertex v t)) eqn:B.
    + rewrite (sgn_turn v t Ht E Hv B), (insert_turn v t Ht E Hv B). lia.
    + rewrite (sgn_keep v t Hv B), (insert_keep v t Ht Hv B). reflexivity.
Qed.

(** ** Chains, cycles and boundaries *)
Variable p : Z.
Hypothesis Hp : prime p.

Lemma turn_cong u v s : (forall x, cong p (u x) (v x)) -> cong p (turn u s) (turn v s).
Proof. intros H. unfold turn. destruct (both s); [|apply H]. destruct (H s) as [q X]. exists (- q). lia. Qed.

Lemma turn_lin N (c : nat -> Z) b s : turn (fun x => Zsum N (fun j => c j * b j x)) s = Zsum N (fun j => c j * turn (b j) s).
Proof. unfold turn. destruct (both s); [|reflexivity]. rewrite <- Zsum_opp. apply Zsum_ext. intros j _. lia. Qed.

Section Move.
Variables K1 K2 : nat -> list nat -> Prop.
Hypothesis HK : forall d s, K1 d (img s) -> K2 d s.

Lemma turn_chain d c : s_chain p K1 d c -> s_chain p K2 d (turn c).
Proof.
  intros H s Hs. apply HK, H. unfold turn in Hs. unfold img. destruct (both s); [|exact Hs]. intros E. apply Hs. rewrite <- Z.sub_0_l, Zminus_mod, E. apply Z.mod_0_l. destruct Hp; lia.
Qed.

Lemma turn_zero f t : (forall t', increasing t' -> length t' = length t -> f t' mod p = 0) -> increasing t -> turn f t mod p = 0.
Proof.
  intros H Ht. unfold turn. destruct (both t) eqn:E.
  - rewrite <- Z.sub_0_l, Zminus_mod, (H t Ht eq_refl). apply Z.mod_0_l. destruct Hp; lia.
  - apply H; [apply sw_increasing; assumption|apply map_length].
Qed.

Lemma turn_cycle d c : s_cycle p n K1 d c -> s_cycle p n K2 d (turn c).
Proof.
  intros [H1 H2]. split; [apply turn_chain, H1|]. intros Hd t Ht L. rewrite bd_turn by exact Ht. apply turn_zero; [|exact Ht]. intros t' Ht' L'. apply H2; [exact Hd|exact Ht'|lia].
Qed.

Lemma turn_bounds d c : s_bounds p n K1 d c -> s_bounds p n K2 d (turn c).
Proof.
  intros [H1 (w & W & H2)]. split; [apply turn_chain, H1|]. exists (turn w). split; [apply turn_chain, W|]. intros t Ht L. rewrite bd_turn by exact Ht. unfold turn. destruct (both t) eqn:E.
  - pose proof (H2 t Ht L) as X. assert (p <> 0) by (destruct Hp; lia). apply cong_iff_mod in X; [|assumption]. apply cong_iff_mod; [assumption|]. destruct X as [q X]. exists (- q). lia.
  - apply H2; [apply sw_increasing; assumption|rewrite map_length; exact L].
Qed.
End Move.

Lemma turn_barcode (K1 K2 : Z -> nat -> list nat -> Prop) M d bars : (forall r e s, K2 r e s <-> K1 r e (img s)) ->
  (forall r r' e s, r <= r' -> K1 r e s -> K1 r' e s) ->
  barcode p (fun r => s_cycle p n (K1 r) d) (fun r => s_bounds p n (K1 r) d) M bars -> barcode p (fun r => s_cycle p n (K2 r) d) (fun r => s_bounds p n (K2 r) d) M bars.
Proof.
  intros HK Hm. assert (Hp1 : 1 < p) by (destruct Hp; lia).
  assert (F : forall r e s, K1 r e (img s) -> K2 r e s) by (intros; apply HK; assumption).
  assert (B : forall r e s, K2 r e (img s) -> K1 r e s) by (intros r e s H; apply HK in H; rewrite img_img in H; exact H).
  apply (barcode_map p _ _ _ _ turn M bars Hp).
  - intros r _. apply s_cycle_sub. exact Hp1.
  - intros r _. apply s_bounds_sub. exact Hp1.
  - intros r s v [L _]. apply s_cycle_mono. intros e x. apply Hm. exact L.
  - intros r s v [L _]. apply s_bounds_mono. intros e x. rewrite !HK. apply Hm. exact L.
  - intros N c b i. rewrite turn_lin. reflexivity.
  - intros u v H i. apply turn_cong. exact H.
  - intros r v _. apply turn_cycle. apply F.
  - intros r v _. apply turn_bounds. apply F.
  - intros r v _ _ H. apply (turn_bounds _ _ (B r)) in H. revert H. apply sub_ext with (p := p); [apply s_bounds_sub; exact Hp1|]. intros i. apply turn_turn.
  - intros r w _ H. exists (turn w). split; [apply (turn_cycle _ _ (B r)), H|].
    apply (s_bounds_sub p n Hp1 _ _ 0%nat (fun _ => 0) (fun _ _ => 0)); [intros j Hj; lia|]. intros i. rewrite turn_turn, Z.sub_diag. reflexivity.
Qed.
End Swap.

(** ** Any order *)
(** The distances of the points of the list [l]. *)
Definition dist_of (Dist : list (list Z)) (l : list nat) : list (list Z) := map (fun v => map (fun u => dist Dist u v) l) l.

Lemma dist_of_at Dist l i j : (i < length l)%nat -> (j < length l)%nat -> dist (dist_of Dist l) i j = dist Dist (nth i l 0%nat) (nth j l 0%nat).
Proof.
  intros Hi Hj. unfold dist_of. unfold dist at 1. rewrite (nth_indep _ [] (map (fun u => dist Dist u 0%nat) l)) by (rewrite map_length; exact Hj).
  rewrite (map_nth (fun v => map (fun u => dist Dist u v) l)). rewrite (nth_indep _ 0 (dist Dist 0%nat (nth j l 0%nat))) by (rewrite map_length; exact Hi).
  rewrite (map_nth (fun u => dist Dist u (nth j l 0%nat))). reflexivity.
Qed.

Lemma dist_of_length Dist l : length (dist_of Dist l) = length l.
Proof. apply map_length. Qed.

(** Only the distances of two points, in their order, matter. *)
Lemma rips_same p Dist Dist' M d bars : length Dist' = length Dist -> (forall u v, (u < v < length Dist)%nat -> dist Dist' u v = dist Dist u v) ->
  rips_barcode p Dist M d bars -> rips_barcode p Dist' M d bars.
Proof.
  intros HL HD. unfold rips_barcode. rewrite HL.
  assert (X : forall r e s, rips Dist e r s <-> rips Dist' e r s).
  { intros r e s. unfold rips, clique. rewrite HL. split; intros [(L & I & V & A) R]; (split; [|exact R]); (split; [exact L|split; [exact I|split; [exact V|]]]); intros u v Hu Hv Luv;
      specialize (A u v Hu Hv Luv); pose proof (V v Hv) as Lv; [rewrite HD by lia|rewrite HD in A by lia]; exact A. }
  apply barcode_iff; intros r v _; [apply s_cycle_iff|apply s_bounds_iff]; apply X.
Qed.

Lemma nth_swap x y (a b : list nat) i : nth i (a ++ x :: y :: b) 0%nat = nth (sw (length a) i) (a ++ y :: x :: b) 0%nat.
Proof.
  unfold sw. destruct (Nat.eqb_spec i (length a)) as [->|N1].
  - rewrite !app_nth2 by lia. rewrite Nat.sub_diag. replace (Datatypes.S (length a) - length a)%nat with 1%nat by lia. reflexivity.
  - destruct (Nat.eqb_spec i (Datatypes.S (length a))) as [->|N2].
    + rewrite !app_nth2 by lia. rewrite Nat.sub_diag. replace (Datatypes.S (length a) - length a)%nat with 1%nat by lia. reflexivity.
    + destruct (Nat.lt_ge_cases i (length a)) as [L|L]; [rewrite !app_nth1 by lia; reflexivity|]. rewrite !app_nth2 by lia.
      destruct (i - length a)%nat as [|[|q]] eqn:E; [lia|lia|reflexivity].
Qed.

Lemma swap_rips Dist x y a b : let l1 := a ++ y :: x :: b in let l2 := a ++ x :: y :: b in
  (forall u v, In u l1 -> In v l1 -> dist Dist u v = dist Dist v u) ->
  forall r e s, rips (dist_of Dist l2) e r s -> rips (dist_of Dist l1) e r (img (length a) s).
Proof.
  intros l1 l2 Hsym r e s [(L & I & V & A) R]. split; [|exact R]. rewrite dist_of_length in *.
  assert (EL : length l2 = length l1) by (unfold l1, l2; rewrite !app_length; reflexivity).
  assert (Hk : (Datatypes.S (length a) < length l1)%nat) by (unfold l1; rewrite app_length; cbn; lia).
  assert (V' : forall v, In v (img (length a) s) -> (v < length l1)%nat).
  { intros v Hv. apply img_in, V in Hv. rewrite EL in Hv. apply (sw_bound (length a) (length l1) Hk) in Hv. rewrite sw_sw in Hv. exact Hv. }
  split; [rewrite img_length; exact L|]. split; [apply img_increasing; exact I|]. split; [exact V'|].
  intros u v Hu Hv Luv. pose proof (V' u Hu) as Bu. pose proof (V' v Hv) as Bv. pose proof (img_in _ _ _ Hu) as Iu. pose proof (img_in _ _ _ Hv) as Iv.
  rewrite dist_of_at by assumption.
  assert (Q : forall i, nth i l1 0%nat = nth (sw (length a) i) l2 0%nat) by (intros i; apply nth_swap).
  destruct (Nat.lt_trichotomy (sw (length a) u) (sw (length a) v)) as [T|[T|T]].
  - specialize (A _ _ Iu Iv T). rewrite dist_of_at in A by (apply V; assumption). rewrite !Q. exact A.
  - exfalso. rewrite <- (sw_sw (length a) u), T, sw_sw in Luv. lia.
  - specialize (A _ _ Iv Iu T). rewrite dist_of_at in A by (apply V; assumption). rewrite <- !Q in A. rewrite Hsym by (apply nth_In; assumption). exact A.
Qed.

Lemma swap_barcode p Dist M d bars x y a b : prime p -> (forall u v, In u (a ++ y :: x :: b) -> In v (a ++ y :: x :: b) -> dist Dist u v = dist Dist v u) ->
  rips_barcode p (dist_of Dist (a ++ y :: x :: b)) M d bars -> rips_barcode p (dist_of Dist (a ++ x :: y :: b)) M d bars.
Proof.
  intros Hp Hsym. unfold rips_barcode. rewrite !dist_of_length.
  assert (EL : length (a ++ x :: y :: b) = length (a ++ y :: x :: b)) by (rewrite !app_length; reflexivity). rewrite EL.
  apply (turn_barcode (length a) (length (a ++ y :: x :: b)) ltac:(rewrite app_length; cbn; lia) p Hp (fun r e => rips (dist_of Dist (a ++ y :: x :: b)) e r) (fun r e => rips (dist_of Dist (a ++ x :: y :: b)) e r)).
  - intros r e s. split; [apply swap_rips; exact Hsym|]. intros H. rewrite <- (img_img (length a) s). apply swap_rips; [|exact H].
    intros u v Hu Hv. apply Hsym; eapply Permutation_in; try eassumption; apply Permutation_app_head, perm_swap.
  - intros r r' e s H. apply rips_mono. exact H.
Qed.

Lemma order_barcode p Dist M d bars l1 l2 : prime p -> Permutation l1 l2 -> (forall u v, In u l1 -> In v l1 -> dist Dist u v = dist Dist v u) ->
  rips_barcode p (dist_of Dist l1) M d bars -> rips_barcode p (dist_of Dist l2) M d bars.
Proof.
  intros Hp HP. apply Permutation_Permutation_transp in HP. induction HP as [l|x y a b|l l' l'' P1 IH1 P2 IH2]; intros Hsym HB; [exact HB|apply swap_barcode; assumption|].
  apply IH2; [|apply IH1; assumption]. apply Permutation_Permutation_transp in P1. intros u v Hu Hv. apply Hsym; apply Permutation_in with (l := l'); try assumption; apply Permutation_sym; exact P1.
Qed.

Theorem rips_order p l Dist Dist' M d bars : prime p -> symmetric Dist -> reordered l Dist Dist' -> rips_barcode p Dist M d bars -> rips_barcode p Dist' M d bars.
Proof.
  intros Hp Hsym (HL & HP & HD) HB.
  assert (Ll : length l = length Dist) by (rewrite (Permutation_length HP); apply seq_length).
  apply (rips_same p (dist_of Dist l)); [rewrite dist_of_length; lia|intros u v H; rewrite dist_of_length in H; rewrite dist_of_at by lia; apply HD; lia|].
  apply (order_barcode p Dist M d bars (seq 0 (length Dist)) l Hp (Permutation_sym HP)); [intros u v Hu Hv; apply in_seq in Hu; apply in_seq in Hv; apply Hsym; lia|].
  apply (rips_same p Dist); [rewrite dist_of_length, seq_length; reflexivity| |exact HB]. intros u v H. rewrite dist_of_at by (rewrite seq_length; lia). rewrite !seq_nth by lia. reflexivity.
Qed.
