(** * Linear algebra behind one step of the persistent homology algorithm *)
From Verif Require Import Base ListX SortX Lin Gauss_model Gauss_arith Gauss_col Gauss_solve Basis_model PH_model.
From Coq Require Import Znumtheory.
Local Open Scope Z_scope.

Notation cf D k := (vget (col D k)).

(** A relation with leading term at [k] expresses [V k] through the previous vectors. *)
Lemma piv_dep p n (V : nat -> fvec) c k : prime p -> (k < n)%nat -> is_piv p c k ->
  veq p (lc n c V) fzero -> span p (fam k (fun _ => true) V) (V k).
Proof.
  intros Hp Hk [Hc Hz] H. destruct (inv_exists p (c k) Hp Hc) as [b Hb].
  apply (span_veq p _ (lc k (fun l => - b * c l) V)).
  - intros i. specialize (H i).
    assert (E : cong p (lc n c V i) (lc k c V i + c k * V k i)).
    { unfold lc. rewrite (Zsum_cong_trunc p n (S k)); [|lia|].
      - cbn [Zsum]. reflexivity.
      - intros l Hl. rewrite (Hz l) by lia. apply cong_eq; ring. }
    rewrite E in H. rewrite lc_scale.
    assert (E2 : cong p (b * (lc k c V i + c k * V k i)) 0).
    { rewrite H. unfold fzero. apply cong_eq; ring. }
    transitivity (- b * lc k c V i + b * (lc k c V i + c k * V k i)).
    + rewrite E2. apply cong_eq; ring.
    + transitivity ((b * c k) * V k i); [apply cong_eq; ring|]. rewrite Hb. apply cong_eq; ring.
  - apply lc_in_span. discriminate.
Qed.

Lemma gauss_run0 p A : prime p -> wf_mat A -> rng_mat p A -> (nrows A = 0 -> ncols A = 0)%nat ->
  exists R T, gauss_col A p = Ok (R, T) /\ gauss_ok p A R T.
Proof.
  intros Hp HA Hr H0. pose proof (prime_ge_2 p Hp).
  destruct (Nat.eq_dec (nrows A) 0) as [E|E].
  - exists (Mat 0 []), (Mat 0 []). split.
    + unfold gauss_col. rewrite E. reflexivity.
    + assert (N0 := H0 E). constructor; cbn [nrows]; try lia; try (unfold ncols; cbn; lia).
      all: try (rewrite N0; intros; try lia; reflexivity). all: rewrite N0; intros; lia.
  - destruct (gauss_col_total p A Hp HA Hr) as (R & T & E').
    exists R, T. split; auto. apply gauss_col_correct; auto.
Qed.

Definition cleared (D : mat) (P : list nat) : mat :=
  Mat (nrows D) (map (fun k => if memn k P then vzero (nrows D) else col D k) (seq 0 (ncols D))).

Lemma clear_cols_ok D P : (forall k, In k P -> (k < ncols D)%nat) -> clear_cols D P = Ok (cleared D P).
Proof.
  intros H. unfold clear_cols. replace (forallb _ P) with true; auto. symmetry. apply forallb_forall.
  intros k Hk. apply Nat.ltb_lt. auto.
Qed.

Lemma cleared_ncols D P : ncols (cleared D P) = ncols D.
Proof. unfold cleared. unfold ncols at 1. cbn [cols]. rewrite map_length, seq_length. reflexivity. Qed.

Lemma cleared_col D P k : (k < ncols D)%nat ->
  col (cleared D P) k = if memn k P then vzero (nrows D) else col D k.
Proof. intros H. unfold cleared. unfold col at 1. cbn [cols]. rewrite nth_map_seq by auto. reflexivity. Qed.

Lemma vget_vzero n i : vget (vzero n) i = 0.
Proof.
  unfold vget, vzero. destruct (lt_dec i n) as [H|H].
  - apply nth_repeat.
  - apply nth_overflow. rewrite repeat_length. lia.
Qed.

Lemma cleared_wf D P : wf_mat D -> wf_mat (cleared D P).
Proof.
  intros H. unfold wf_mat, cleared. cbn [nrows cols]. apply Forall_forall. intros c Hc.
  apply in_map_iff in Hc. destruct Hc as (k & <- & Hk). apply in_seq in Hk.
  destruct (memn k P); [apply repeat_length|]. apply wf_col; auto. lia.
Qed.

Lemma cleared_rng p D P : 0 < p -> rng_mat p D -> rng_mat p (cleared D P).
Proof.
  intros Hp H k Hk. rewrite cleared_ncols in Hk. rewrite cleared_col by auto.
  destruct (memn k P); [|apply H; auto]. intros i. rewrite vget_vzero. lia.
Qed.

Section Degree.
Variables (p : Z) (D : mat) (P : list nat) (R T : mat).
Hypothesis Hp : prime p.
Hypothesis HD : rng_mat p D.
Let N := ncols D.
Hypothesis HP : forall k, In k P -> (k < N)%nat /\
  exists c, is_piv p c k /\ veq p (lc N c (fun l => cf D l)) fzero.
Hypothesis G : gauss_ok p (cleared D P) R T.

Local Lemma HncA : ncols (cleared D P) = N.
Proof. apply cleared_ncols. Qed.

Lemma pivot_col_dep k : In k P -> span p (cfam D k) (cf D k).
Proof. intros H. destruct (HP k H) as (Hk & c & Hc & Hz). apply (piv_dep p N (fun l => cf D l) c k); auto. Qed.

Lemma col_in_cleared n l : (n <= N)%nat -> (l < n)%nat -> span p (cfam (cleared D P) n) (cf D l).
Proof.
  intros Hn. induction l as [l IH] using lt_wf_ind. intros Hl.
  destruct (memn l P) eqn:E.
  - apply memn_In in E. apply (span_incl p (cfam D l)); [|apply pivot_col_dep; auto].
    intros u (k & Hk & _ & ->). apply IH; lia.
  - apply span_in. exists l. split; auto. split; auto. rewrite cleared_col by (fold N; lia). rewrite E. reflexivity.
Qed.

Lemma cleared_span n v : (n <= N)%nat -> span p (cfam D n) v <-> span p (cfam (cleared D P) n) v.
Proof.
  intros Hn. split; apply span_incl; intros u (k & Hk & _ & ->).
  - apply col_in_cleared; auto.
  - rewrite cleared_col by (fold N; lia). destruct (memn k P).
    + apply span_0. intros i. rewrite vget_vzero. reflexivity.
    + apply span_in. exists k. auto.
Qed.

(** The prefixes of the boundary matrix and of the reduced cleared matrix span the same space. *)
Lemma cleared_prefix n v : (n <= N)%nat -> span p (cfam D n) v <-> span p (cfam R n) v.
Proof.
  intros Hn. rewrite cleared_span by auto. apply (prefix_span p _ R T G). rewrite HncA. auto.
Qed.

Lemma cleared_zero_col l : In l P -> (l < N)%nat /\ (forall i, get R i l = 0).
Proof.
  intros H. assert (Hl : (l < N)%nat) by (apply HP; auto). split; auto.
  apply (go_zero _ _ _ _ G l); [rewrite HncA; auto|].
  intros i. unfold get. rewrite cleared_col by auto. apply memn_In in H. rewrite H. apply vget_vzero.
Qed.

(** On non-pivot columns the transformation of the cleared matrix is also one for the full matrix. *)
Lemma full_product k : (k < N)%nat -> ~ In k P ->
  veq p (cf R k) (lc N (cf T k) (fun l => cf D l)).
Proof.
  intros Hk Hn i. assert (Hk' : (k < ncols (cleared D P))%nat) by (rewrite HncA; auto).
  rewrite (go_prod _ _ _ _ G k Hk' i). rewrite HncA.
  apply cong_eq. unfold lc. apply Zsum_ext. intros l Hl. rewrite cleared_col by auto.
  destruct (memn l P) eqn:E; auto. apply memn_In in E.
  rewrite vget_vzero. destruct (lt_eq_lt_dec l k) as [[H|H]|H].
  - replace (vget (col T k) l) with 0; [ring|]. symmetry.
    apply (go_red _ _ _ _ G l k); [rewrite HncA; lia|]. apply cleared_zero_col; auto.
  - subst. tauto.
  - replace (vget (col T k) l) with 0; [ring|]. symmetry.
    apply (go_upper _ _ _ _ G l k); auto.
Qed.

(** A cycle whose last cell is [i] forces column [i] to reduce to zero, unless [i] is a pivot. *)
Lemma cycle_pivot v i : (i < N)%nat -> ~ In i P -> is_piv p v i ->
  veq p (lc N v (fun l => cf D l)) fzero -> forall x, get R x i = 0.
Proof.
  intros Hi Hn Hv Hz.
  apply (gauss_dep_zero p (cleared D P) R T G Hp).
  - apply cleared_rng; auto. pose proof (prime_ge_2 p Hp). lia.
  - rewrite HncA; auto.
  - rewrite cleared_col by auto. destruct (memn i P) eqn:E; [apply memn_In in E; tauto|].
    apply cleared_span; [lia|]. apply (piv_dep p N (fun l => cf D l) v i); auto.
Qed.

Lemma T_piv k : (k < N)%nat -> is_piv p (cf T k) k.
Proof.
  intros Hk. split.
  - change (~ cong p (get T k k) 0). rewrite (go_diag _ _ _ _ G) by (rewrite HncA; auto). apply prime_1_not_0; auto.
  - intros j Hj. change (cong p (get T j k) 0). rewrite (go_upper _ _ _ _ G) by (auto; rewrite HncA; auto). reflexivity.
Qed.

Lemma R_rng k : (k < N)%nat -> rng p (col R k).
Proof.
  intros Hk. apply (go_rngR _ _ _ _ G); [|rewrite HncA; auto]. apply cleared_rng; auto.
  pose proof (prime_ge_2 p Hp). lia.
Qed.

Lemma R_nonzero_not_P k : (k < N)%nat -> vany (col R k) = true -> ~ In k P.
Proof.
  intros Hk Hv Hn. destruct (cleared_zero_col k Hn) as [_ H].
  assert (vany (col R k) = false); [|congruence].
  apply vany_false. intros i. apply H.
Qed.
End Degree.
