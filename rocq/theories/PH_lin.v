(** * Dimension of spaces of chains *)
From Verif Require Import Base ListX Lin Gauss_model Gauss_arith Gauss_col Gauss_solve PH_core Spec_PH.
From Coq Require Import Znumtheory.
Local Open Scope Z_scope.

Section Dim.
Variable p : Z.
Hypothesis Hp : prime p.

Local Lemma p2 : 2 <= p.
Proof. apply prime_ge_2; auto. Qed.

Lemma mod_cong a b : a mod p = b mod p <-> cong p a b.
Proof. pose proof p2. symmetry. apply cong_iff_mod. lia. Qed.

Lemma mod_cong0 a : a mod p = 0 <-> cong p a 0.
Proof. pose proof p2. rewrite <- mod_cong, Z.mod_0_l by lia. reflexivity. Qed.

(** A homogeneous system with more unknowns than equations has a non-trivial solution. *)
Lemma kernel_exists m n (a : nat -> nat -> Z) : (m < n)%nat -> exists c,
  (exists k, (k < n)%nat /\ ~ cong p (c k) 0) /\
  forall i, (i < m)%nat -> cong p (Zsum n (fun k => c k * a i k)) 0.
Proof.
  intros Hmn. pose proof p2 as H2. destruct (Nat.eq_dec m 0) as [->|Hm0].
  { exists (fun _ => 1). split; [exists 0%nat; split; [lia|apply prime_1_not_0; auto]|intros; lia]. }
  set (A := Mat m (map (fun k => map (fun i => a i k mod p) (seq 0 m)) (seq 0 n))).
  assert (HnA : ncols A = n) by (unfold ncols, A; cbn [cols]; rewrite map_length, seq_length; auto).
  assert (HcA : forall k, (k < n)%nat -> col A k = map (fun i => a i k mod p) (seq 0 m)).
  { intros k Hk. unfold col, A. cbn [cols]. rewrite nth_map_seq by auto. reflexivity. }
  assert (HgA : forall i k, (i < m)%nat -> (k < n)%nat -> get A i k = a i k mod p).
  { intros i k Hi Hk. unfold get. rewrite HcA by auto. unfold vget. rewrite nth_map_seq by auto. reflexivity. }
  assert (Hwf : wf_mat A).
  { unfold wf_mat, A. cbn [cols nrows]. apply Forall_forall. intros x Hx. apply in_map_iff in Hx.
    destruct Hx as (k & <- & _). rewrite map_length, seq_length. auto. }
  assert (Hr : rng_mat p A).
  { intros k Hk i. rewrite HnA in Hk. destruct (lt_dec i m).
    - change (0 <= get A i k < p). rewrite HgA by auto. apply Z.mod_pos_bound. lia.
    - unfold vget. rewrite nth_overflow; [lia|]. rewrite HcA by auto. rewrite map_length, seq_length. lia. }
  destruct (gauss_run0 p A Hp Hwf Hr) as (R & T & _ & G).
  { unfold A at 1. cbn [nrows]. lia. }
  (* some column of R vanishes *)
  assert (Z0 : exists k, (k < n)%nat /\ vany (col R k) = false).
  { destruct (existsb (fun k => negb (vany (col R k))) (seq 0 n)) eqn:E.
    - apply existsb_exists in E. destruct E as (k & Hk & E). exists k. apply in_seq in Hk. split; [lia|].
      destruct (vany (col R k)); [discriminate|auto].
    - exfalso.
      assert (Hall : forall k, (k < n)%nat -> nzb R k = true).
      { intros k Hk. assert (V : vany (col R k) = true).
        { destruct (vany (col R k)) eqn:Ev; auto.
          assert (existsb (fun k => negb (vany (col R k))) (seq 0 n) = true); [|congruence].
          apply existsb_exists. exists k. rewrite Ev. split; auto. apply in_seq. lia. }
        unfold nzb. destruct (Z.eqb_spec (index_pivot (col R k)) (-1)) as [Ex|]; auto.
        assert (vany (col R k) = false); [|congruence]. apply vany_false. apply index_pivot_m1; auto. }
      assert (Hnd : NoDup (map (fun k => npiv (col R k)) (seq 0 n))).
      { assert (X : forall l, NoDup l -> (forall k, In k l -> (k < n)%nat) -> NoDup (map (fun k => npiv (col R k)) l)).
        { intros l Hl. induction Hl as [|x l Hx Hl IH]; intros Hb; cbn; constructor.
          - rewrite in_map_iff. intros (y & Ey & Hy). apply Hx.
            replace x with y; auto. apply (nzb_distinct p A R T G Hr); auto.
            + rewrite HnA. apply Hb; right; auto.
            + rewrite HnA. apply Hb; left; auto.
            + apply Hall, Hb; right; auto.
            + apply Hall, Hb; left; auto.
          - apply IH. intros k Hk. apply Hb; right; auto. }
        apply X; [apply seq_NoDup|]. intros k Hk. apply in_seq in Hk. lia. }
      assert (L : (length (map (fun k => npiv (col R k)) (seq 0 n)) <= length (seq 0 m))%nat).
      { apply NoDup_incl_length; auto. intros x Hx. apply in_map_iff in Hx. destruct Hx as (k & <- & Hk).
        apply in_seq in Hk. apply in_seq. split; [lia|]. cbn [plus].
        assert (Hl : length (col R k) = m) by (rewrite (go_lenR _ _ _ _ G) by (rewrite HnA; lia); reflexivity).
        rewrite <- Hl. apply npiv_spec. specialize (Hall k ltac:(lia)). unfold nzb in Hall.
        destruct (Z.eqb_spec (index_pivot (col R k)) (-1)); [discriminate|auto]. }
      rewrite map_length, !seq_length in L. lia. }
  destruct Z0 as (k & Hk & Ez). exists (fun j => get T j k). split.
  - exists k. split; auto. rewrite (go_diag _ _ _ _ G) by (rewrite HnA; auto). apply prime_1_not_0; auto.
  - intros i Hi. pose proof (go_prod _ _ _ _ G k ltac:(rewrite HnA; auto) i) as E.
    rewrite (proj1 (vany_false _) Ez i) in E. rewrite HnA in E. rewrite E. unfold lc. symmetry.
    apply Zsum_cong. intros j Hj. change (vget (col T k) j) with (get T j k). change (vget (col A j) i) with (get A i j).
    rewrite HgA by auto. rewrite (cong_mod p (a i j)). reflexivity.
Qed.

Lemma exchange n m (V W : nat -> fvec) :
  (forall k, (k < n)%nat -> exists c, veq p (V k) (lc m c W)) ->
  (forall c, veq p (lc n c V) fzero -> forall k, (k < n)%nat -> cong p (c k) 0) -> (n <= m)%nat.
Proof.
  intros HV HI. destruct (le_lt_dec n m) as [|Hlt]; auto. exfalso.
  assert (HA : exists a : nat -> nat -> Z, forall k, (k < n)%nat -> veq p (V k) (lc m (a k) W)).
  { clear HI Hlt. induction n as [|n IH].
    - exists (fun _ _ => 0). intros; lia.
    - destruct IH as [a Ha]; [intros k Hk; apply HV; lia|]. destruct (HV n ltac:(lia)) as [c Hc].
      exists (fun k => if Nat.eqb k n then c else a k). intros k Hk.
      destruct (Nat.eqb_spec k n) as [->|]; auto. apply Ha. lia. }
  destruct HA as [a Ha].
  destruct (kernel_exists m n (fun i k => a k i) Hlt) as (c & (k & Hk & Hne) & Hker).
  apply Hne. apply HI; auto. intros i. unfold lc.
  rewrite (Zsum_cong p n _ (fun l => Zsum m (fun j => c l * a l j * W j i))).
  - rewrite Zsum_swap. unfold fzero. apply Zsum_cong0. intros j Hj. rewrite Zsum_scale_r. rewrite (Hker j Hj).
    apply cong_eq; ring.
  - intros l Hl. rewrite (Ha l Hl i). unfold lc. rewrite <- Zsum_scale. apply cong_eq. apply Zsum_ext. intros; ring.
Qed.

Lemma has_dim_le (S : fvec -> Prop) n m : has_dim p S n -> has_dim p S m -> (n <= m)%nat.
Proof.
  intros (b & Hb & _ & Hi) (b' & _ & Hs & _). apply (exchange n m b b').
  - intros k Hk. destruct (Hs (b k) (Hb k Hk)) as [c Hc]. exists c. intros i. apply mod_cong. exact (Hc i).
  - intros c Hc k Hk. apply mod_cong0. apply Hi; auto. intros i. apply mod_cong0. exact (Hc i).
Qed.

Lemma has_dim_unique (S : fvec -> Prop) n m : has_dim p S n -> has_dim p S m -> n = m.
Proof. intros H1 H2. apply Nat.le_antisymm; eapply has_dim_le; eauto. Qed.

(** Subspaces have smaller dimension. *)
Lemma has_dim_sub (S S' : fvec -> Prop) n m : (forall v, S v -> S' v) -> has_dim p S n -> has_dim p S' m -> (n <= m)%nat.
Proof.
  intros HS (b & Hb & _ & Hi) (b' & _ & Hs & _). apply (exchange n m b b').
  - intros k Hk. destruct (Hs (b k) (HS _ (Hb k Hk))) as [c Hc]. exists c. intros i. apply mod_cong. exact (Hc i).
  - intros c Hc k Hk. apply mod_cong0. apply Hi; auto. intros i. apply mod_cong0. exact (Hc i).
Qed.

Lemma has_dim_ext (S S' : fvec -> Prop) n : (forall v, S v <-> S' v) -> has_dim p S n -> has_dim p S' n.
Proof.
  intros E (b & Hb & Hs & Hi). exists b. split; [|split; auto].
  - intros k Hk. apply E; auto.
  - intros v Hv. apply Hs, E; auto.
Qed.

(** ** Lists of vectors with distinct pivots *)
Section Lists.
Context {X : Type}.
Variables (F : X -> fvec) (pv : X -> nat).

Definition lspan (L : list X) : fvec -> Prop := span p (fun u => exists x, In x L /\ u = F x).

Lemma lspan_fam L v : lspan L v <-> span p (fam (length L) (fun _ => true) (fun k => nth k (map F L) fzero)) v.
Proof.
  split; apply span_mono.
  - intros u (x & Hx & ->). apply In_nth with (d := x) in Hx. destruct Hx as (k & Hk & Ek).
    exists k. split; auto. split; auto. rewrite (nth_map F L k x) by auto. congruence.
  - intros u (k & Hk & _ & ->). assert (Hk' : (k < length (map F L))%nat) by (rewrite map_length; auto).
    apply (nth_In _ fzero) in Hk'. apply in_map_iff in Hk'. destruct Hk' as (x & E & Hx). exists x. auto.
Qed.

Variable L : list X.
Hypothesis Hpiv : forall x, In x L -> is_piv p (F x) (pv x).
Hypothesis Hnd : NoDup (map pv L).

Lemma nth_piv k : (k < length L)%nat -> is_piv p (nth k (map F L) fzero) (nth k (map pv L) 0%nat).
Proof.
  intros Hk. destruct L as [|x0 l] eqn:E; [cbn in Hk; lia|]. rewrite <- E in *.
  rewrite (nth_map F L k x0), (nth_map pv L k x0) by auto. apply Hpiv. apply nth_In; auto.
Qed.

Lemma nth_pv_inj k l : (k < length L)%nat -> (l < length L)%nat ->
  nth k (map pv L) 0%nat = nth l (map pv L) 0%nat -> k = l.
Proof. intros Hk Hl E. apply (proj1 (NoDup_nth (map pv L) 0%nat) Hnd); rewrite ?map_length; auto. Qed.

Lemma dim_of_list (S : fvec -> Prop) : (forall v, S v <-> lspan L v) -> has_dim p S (length L).
Proof.
  intros HS. exists (fun k => nth k (map F L) fzero). split; [|split].
  - intros k Hk. apply HS. apply lspan_fam. apply span_in. exists k. auto.
  - intros v Hv. apply HS in Hv. apply lspan_fam in Hv. apply span_lc in Hv. destruct Hv as (c & _ & E).
    exists c. intros i. apply mod_cong. apply (E i).
  - intros c Hc k Hk. apply mod_cong0.
    apply (piv_indep p Hp (length L) (fun k => nth k (map F L) fzero) (fun k => nth k (map pv L) 0%nat) c); auto.
    + intros l Hl _. apply nth_piv; auto.
    + intros l l' Hl Hl' _ _. apply nth_pv_inj; auto.
    + intros i. apply mod_cong0. apply Hc.
Qed.

Lemma lspan_piv v i : lspan L v -> is_piv p v i -> exists x, In x L /\ pv x = i.
Proof.
  intros Hs Hi. apply lspan_fam in Hs.
  destruct (piv_in_span p Hp (length L) (fun _ => true) (fun k => nth k (map F L) fzero) (fun k => nth k (map pv L) 0%nat) v i)
    as (k & Hk & _ & E); auto.
  - intros k Hk _. apply nth_piv; auto.
  - intros k l Hk Hl _ _. apply nth_pv_inj; auto.
  - assert (Hk' : (k < length (map pv L))%nat) by (rewrite map_length; auto).
    apply (nth_In _ 0%nat) in Hk'. rewrite E in Hk'. apply in_map_iff in Hk'. destruct Hk' as (x & Ex & Hx). eauto.
Qed.
End Lists.

(** Splitting a combination of two families. *)
Lemma span_union (A B : fvec -> Prop) v : span p (fun u => A u \/ B u) v ->
  exists a b, span p A a /\ span p B b /\ veq p v (fadd a b).
Proof.
  intros H. induction H as [v H|u v w c Hu Hv (a & b & Ha & Hb & E) H].
  - exists fzero, fzero. split; [apply span_0; reflexivity|]. split; [apply span_0; reflexivity|].
    intros i. rewrite (H i). reflexivity.
  - destruct Hu as [Hu|Hu].
    + exists (fadd (fscale c u) a), b. split; [|split; auto].
      * apply (span_step p A u a _ c); auto. reflexivity.
      * intros i. rewrite (H i). unfold fadd, fscale. rewrite (E i). unfold fadd. apply cong_eq; ring.
    + exists a, (fadd (fscale c u) b). split; [auto|split].
      * apply (span_step p B u b _ c); auto. reflexivity.
      * intros i. rewrite (H i). unfold fadd, fscale. rewrite (E i). unfold fadd. apply cong_eq; ring.
Qed.
End Dim.
