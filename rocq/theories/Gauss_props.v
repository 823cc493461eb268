(** * Proofs of the statements in [Props_Gauss.v]. *)
From Verif Require Import Base ListX Lin Gauss_model Gauss_arith Gauss_col Gauss_solve Gauss_rad Gauss_bar Spec_Gauss.
From Coq Require Import Znumtheory.
Local Open Scope Z_scope.

Lemma reduced_vec_rng p v : 0 < p -> reduced_vec p v <-> rng p v.
Proof. intros Hp. unfold reduced_vec. symmetry. apply rng_iff; auto. Qed.

Lemma reduced_mat_rng p A : 0 < p -> reduced_mat p A -> rng_mat p A.
Proof.
  intros Hp H k Hk. apply reduced_vec_rng; auto. unfold reduced_mat in H. rewrite Forall_forall in H.
  apply H. apply nth_In. exact Hk.
Qed.

Lemma rng_reduced_mat p A : 0 < p -> rng_mat p A -> reduced_mat p A.
Proof.
  intros Hp H. apply Forall_forall. intros c Hc. apply reduced_vec_rng; auto.
  apply In_nth with (d := []) in Hc. destruct Hc as (k & Hk & <-). apply (H k Hk).
Qed.

Lemma wf_of_cols A : (forall j, (j < ncols A)%nat -> length (col A j) = nrows A) -> wf_mat A.
Proof.
  intros H. apply Forall_forall. intros c Hc. apply In_nth with (d := []) in Hc.
  destruct Hc as (k & Hk & <-). apply (H k Hk).
Qed.

Lemma gauss_run p A : prime p -> wf_mat A -> reduced_mat p A -> (nrows A <> 0)%nat ->
  exists R T, gauss_col A p = Ok (R, T) /\ gauss_ok p A R T.
Proof.
  intros Hp HA Hr H0. pose proof (prime_ge_2 p Hp).
  destruct (gauss_col_total p A Hp HA) as (R & T & E); [apply reduced_mat_rng; auto; lia|].
  exists R, T. split; auto. apply gauss_col_correct; auto. 
Qed.

Lemma C03_aux p A R T : 2 <= p -> wf_mat A -> (0 < nrows A)%nat ->
  gauss_col A p = Ok (R, T) ->
  wf_mat R /\ nrows R = nrows A /\ ncols R = ncols A /\ nrows T = ncols A /\ ncols T = ncols A /\
  forall i j, (i < nrows A)%nat -> (j < ncols A)%nat ->
    get R i j mod p = prod_entry (ncols A) A T i j mod p.
Proof.
  intros Hp HA H0 E. assert (G : gauss_ok p A R T) by (apply gauss_col_correct; auto; lia).
  split.
  { apply wf_of_cols. rewrite (go_ncR _ _ _ _ G), (go_nrR _ _ _ _ G). apply G. }
  split; [apply G|]. split; [apply G|]. split; [apply G|]. split; [apply G|].
  intros i j Hi Hj. apply cong_iff_mod; [lia|].
  rewrite (go_prod _ _ _ _ G j Hj i : cong p (get R i j) _).
  apply cong_eq. unfold lc, prod_entry. apply Zsum_ext. intros k Hk. unfold get. ring.
Qed.

Lemma in_col_span_iff p A n m v : p <> 0 -> (forall k i, (m <= i)%nat -> (k < n)%nat -> get A i k = 0) ->
  (forall i, (m <= i)%nat -> v i = 0) ->
  in_col_span p A n m v <-> span p (cfam A n) v.
Proof.
  intros Hp HA Hv. split.
  - intros [c Hc]. apply (solution_span p A n c). intros i. destruct (lt_dec i m) as [Hi|Hi].
    + apply cong_iff_mod; auto.
    + rewrite Hv by lia. rewrite Zsum_0; [reflexivity|]. intros k Hk. rewrite HA by lia. ring.
  - intros H. apply span_lc in H. destruct H as (c & _ & E). exists c. intros i Hi.
    symmetry. apply cong_iff_mod; auto. apply E.
Qed.

Lemma C04_aux p A R T : 2 <= p -> wf_mat A -> (0 < nrows A)%nat ->
  gauss_col A p = Ok (R, T) ->
  (forall j, (j < ncols A)%nat -> get T j j = 1) /\
  (forall i j, (j < i < ncols A)%nat -> get T i j = 0) /\
  (forall i j, (i < ncols A)%nat -> (j < ncols A)%nat -> 0 <= get T i j < p) /\
  (forall n v, (n <= ncols A)%nat ->
     (forall i, (nrows A <= i)%nat -> v i = 0) ->
     in_col_span p R n (nrows A) v <-> in_col_span p A n (nrows A) v).
Proof.
  intros Hp HA H0 E. assert (G : gauss_ok p A R T) by (apply gauss_col_correct; auto; lia).
  split; [apply G|]. split; [intros i j Hij; apply (go_upper _ _ _ _ G); lia|].
  split; [intros i j Hi Hj; apply (go_rngT _ _ _ _ G j Hj i)|].
  intros n v Hn Hv. rewrite !in_col_span_iff; auto; try lia.
  - symmetry. apply (prefix_span p A R T G n v Hn).
  - intros; apply get_wf_out; auto.
  - intros k i Hi Hk. unfold get. apply vget_out. rewrite (go_lenR _ _ _ _ G) by lia. auto.
Qed.

Lemma pivot_at_index v i : pivot_at v i <-> index_pivot v = Z.of_nat i.
Proof. symmetry. apply index_pivot_iff. Qed.

Lemma C05_aux p A R T : prime p -> wf_mat A -> reduced_mat p A -> (0 < nrows A)%nat ->
  gauss_col A p = Ok (R, T) ->
  (forall k l i, (k < ncols A)%nat -> (l < ncols A)%nat ->
     pivot_at (col R k) i -> pivot_at (col R l) i -> k = l) /\
  (forall c : nat -> Z,
     (forall k, (k < ncols A)%nat -> (forall i, get R i k = 0) -> c k = 0) ->
     (forall i, (i < nrows A)%nat -> Zsum (ncols A) (fun k => c k * get R i k) mod p = 0) ->
     forall k, (k < ncols A)%nat -> c k mod p = 0).
Proof.
  intros Hp HA Hr H0 E. pose proof (prime_ge_2 p Hp) as Hp2.
  assert (G : gauss_ok p A R T) by (apply gauss_col_correct; auto; lia).
  assert (HrA : rng_mat p A) by (apply reduced_mat_rng; auto; lia).
  split.
  - intros k l i Hk Hl Pk Pl. apply pivot_at_index in Pk, Pl.
    destruct (lt_eq_lt_dec k l) as [[H|H]|H]; auto; exfalso.
    + assert (X : index_pivot (col R l) = -1) by (apply (go_piv _ _ _ _ G k l); [lia|congruence]). lia.
    + assert (X : index_pivot (col R k) = -1) by (apply (go_piv _ _ _ _ G l k); [lia|congruence]). lia.
  - intros c Hc Hz k Hk.
    set (c' := fun k => if Nat.ltb k (ncols A) then c k else 0).
    assert (E' : cong p (c' k) 0).
    { apply (gauss_indep p A R T G Hp HrA c'); auto.
      - intros l Hl. unfold c'. destruct (Nat.ltb_spec l (ncols A)); auto. apply Hc; auto.
        unfold nzb in Hl. destruct (Z.eqb_spec (index_pivot (col R l)) (-1)) as [X|]; [|discriminate].
        apply (proj1 (index_pivot_m1 _) X).
      - intros i. destruct (lt_dec i (nrows A)) as [Hi|Hi].
        + apply cong_iff_mod; [lia|]. unfold fzero. rewrite Zmod_0_l'. rewrite <- (Hz i Hi).
          f_equal. unfold lc. apply Zsum_ext. intros l Hl. unfold c', get.
          destruct (Nat.ltb_spec l (ncols A)); auto. lia.
        + unfold lc. rewrite Zsum_0; [reflexivity|]. intros l Hl.
          rewrite (vget_out (col R l)); [ring|]. rewrite (go_lenR _ _ _ _ G); lia. }
    unfold c' in E'. destruct (Nat.ltb_spec k (ncols A)); [|lia].
    apply cong_iff_mod in E'; [|lia]. rewrite E'. apply Zmod_0_l'.
Qed.

Lemma C06_aux p A : wf_mat A ->
  (prime p -> reduced_mat p A -> exists R T, gauss_col A p = Ok (R, T)) /\
  gauss_col A p <> Err OutOfFuel.
Proof.
  intros HA. split.
  - intros Hp Hr. pose proof (prime_ge_2 p Hp). apply gauss_col_total; auto. apply reduced_mat_rng; auto. lia.
  - apply gauss_col_terminates; auto.
Qed.

Lemma Zsum_comm n (f g : nat -> Z) : Zsum n (fun k => f k * g k) = Zsum n (fun k => g k * f k).
Proof. apply Zsum_ext. intros; ring. Qed.

Lemma C07_aux p A b x : 2 <= p -> wf_mat A ->
  solve_mod_p A b p = Ok x ->
  length x = ncols A /\ reduced_vec p x /\ length b = nrows A /\
  forall i, (i < nrows A)%nat ->
    Zsum (ncols A) (fun k => get A i k * vget x k) mod p = vget b i mod p.
Proof.
  intros Hp HA E. apply solve_mod_p_sound in E; auto. destruct E as (H1 & H2 & H3 & H4).
  split; auto. split; [apply reduced_vec_rng; auto; lia|]. split; auto.
  intros i Hi. apply cong_iff_mod; [lia|]. rewrite Zsum_comm. auto.
Qed.

Lemma C08_aux p A b : prime p -> wf_mat A -> reduced_mat p A -> reduced_vec p b ->
  length b = nrows A -> (0 < nrows A)%nat ->
  (solvable p A (vget b) <-> exists x, solve_mod_p A b p = Ok x) /\
  (~ solvable p A (vget b) <-> solve_mod_p A b p = Err ValueError).
Proof.
  intros Hp HA Hr Hrb Hb H0. pose proof (prime_ge_2 p Hp).
  apply reduced_mat_rng in Hr; [|lia]. apply reduced_vec_rng in Hrb; [|lia].
  assert (S1 : solvable p A (vget b) <-> exists y, forall i, (i < nrows A)%nat ->
     cong p (Zsum (ncols A) (fun k => y k * get A i k)) (vget b i)).
  { split; intros [y Hy]; exists y; intros i Hi; specialize (Hy i Hi);
      rewrite Zsum_comm in Hy; apply cong_iff_mod; auto; lia. }
  assert (I1 : solvable p A (vget b) <-> exists x, solve_mod_p A b p = Ok x).
  { rewrite S1. split.
    - intros [y Hy]. apply (solve_mod_p_complete p A b y); auto. lia.
    - intros [x E]. exists (vget x). apply (solve_mod_p_sound p A b x); auto. }
  split; auto. split.
  - rewrite S1. intros Hn. apply solve_mod_p_error; auto. lia.
  - intros E Hs. apply I1 in Hs. destruct Hs as [x Hx]. congruence.
Qed.

Lemma solve_matrix_err p A B e : prime p -> wf_mat A -> rng_mat p A -> wf_mat B -> rng_mat p B ->
  ncols B = nrows A -> (nrows A <> 0)%nat ->
  solve_matrix_mod_p A B p = Err e -> e = ValueError.
Proof.
  intros Hp HA Hr HB HrB Hb H0. pose proof (prime_ge_2 p Hp) as Hp2.
  unfold solve_matrix_mod_p. rewrite Hb, Nat.eqb_refl. cbn [negb].
  destruct (mtr_dims B) as [Mr Mc].
  destruct (gauss_col_total p (mappend A (mtr B)) Hp) as (R & T & E).
  - apply wf_mappend; auto using wf_mtr; lia.
  - apply rng_mappend; auto. intros j Hj i. change (vget (col (mtr B) j) i) with (get (mtr B) i j).
    destruct (lt_dec i (ncols B)) as [Hi|Hi].
    + rewrite get_mtr by lia. unfold get. apply HrB; auto.
    + rewrite get_wf_out by (auto using wf_mtr; lia). lia.
  - rewrite E. cbn [bind]. destruct (Nat.eqb_spec (nrows A) 0); [lia|].
    destruct (existsb _ _); congruence.
Qed.

Lemma C09_aux p A B : prime p -> wf_mat A -> reduced_mat p A -> wf_mat B -> reduced_mat p B ->
  ncols B = nrows A -> (0 < nrows A)%nat ->
  (forall X, solve_matrix_mod_p A B p = Ok X ->
     nrows X = ncols A /\ ncols X = nrows B /\
     forall i j, (i < nrows A)%nat -> (j < nrows B)%nat ->
       prod_entry (ncols A) A X i j mod p = get B j i mod p) /\
  ((forall j, (j < nrows B)%nat -> solvable p A (fun i => get B j i)) ->
     exists X, solve_matrix_mod_p A B p = Ok X) /\
  (forall j, (j < nrows B)%nat -> ~ solvable p A (fun i => get B j i) ->
     solve_matrix_mod_p A B p = Err ValueError).
Proof.
  intros Hp HA Hr HB HrB Hb H0. pose proof (prime_ge_2 p Hp) as Hp2.
  apply reduced_mat_rng in Hr; [|lia]. apply reduced_mat_rng in HrB; [|lia].
  assert (S1 : forall X, solve_matrix_mod_p A B p = Ok X ->
     nrows X = ncols A /\ ncols X = nrows B /\
     forall i j, (i < nrows A)%nat -> (j < nrows B)%nat ->
       prod_entry (ncols A) A X i j mod p = get B j i mod p).
  { intros X E. apply solve_matrix_sound in E; auto. destruct E as (H1 & H2 & H3 & H4).
    split; auto. split; auto. intros i j Hi Hj. apply cong_iff_mod; [lia|]. apply H4; auto. }
  split; auto. split.
  - intros Hs.
    assert (Hch : exists Y : nat -> nat -> Z, forall j, (j < nrows B)%nat -> forall i, (i < nrows A)%nat ->
       Zsum (ncols A) (fun k => get A i k * Y k j) mod p = get B j i mod p).
    { clear - Hs. induction (nrows B) as [|n IH].
      - exists (fun _ _ => 0). intros; lia.
      - destruct IH as [Y HY]; [intros; apply Hs; lia|]. destruct (Hs n ltac:(lia)) as [y Hy].
        exists (fun k j => if Nat.eqb j n then y k else Y k j). intros j Hj i Hi.
        destruct (Nat.eqb_spec j n) as [->|]; [apply Hy; auto|apply HY; auto; lia]. }
    destruct Hch as [Y HY]. apply (solve_matrix_complete p A B Y); auto; try lia.
    intros i j Hi Hj. apply cong_iff_mod; [lia|]. apply HY; auto.
  - intros j Hj Hn. destruct (solve_matrix_mod_p A B p) as [X|e] eqn:E.
    + exfalso. apply Hn. destruct (S1 X eq_refl) as (_ & _ & H). exists (fun k => get X k j).
      intros i Hi. apply H; auto.
    + assert (N0 : nrows A <> 0%nat) by (clear - H0; lia).
      rewrite (solve_matrix_err p A B e Hp HA Hr HB HrB Hb N0 E). reflexivity.
Qed.

Lemma C10_aux A Rd s p Red T : wf_mat A -> 2 <= p -> (ncols A <= length Rd)%nat ->
  gauss_col_rad A Rd s p = Ok (Red, T) ->
  forall j, (s <= j < ncols A)%nat ->
    (forall i, (i < nrows A)%nat -> get Red i j = 0) /\
    (forall i, (i < nrows A)%nat -> prod_entry (ncols A) A T i j mod p = 0) /\
    get T j j = 1 /\
    (forall k, k <> j -> get T k j <> 0 -> (k < s)%nat /\ nth k Rd 0 <= nth j Rd 0).
Proof.
  intros HA Hp HR E j Hj.
  destruct (gauss_col_rad_shape A Rd s p HA Hp HR Red T E) as (_ & _ & _ & _ & _ & H).
  destruct (H j Hj) as [(Hlr & Hlt & Hrr & Hrt & Hpr & Hdg & Hus) Hz].
  split; auto. split; [|split; auto].
  - intros i Hi.
    assert (C : cong p (prod_entry (ncols A) A T i j) 0).
    { transitivity (vget (col Red j) i).
      - rewrite (Hpr i). apply cong_eq. unfold prod_entry, lc. apply Zsum_ext. intros; unfold get; ring.
      - change (vget (col Red j) i) with (get Red i j). rewrite Hz. reflexivity. }
    apply cong_iff_mod in C; [|lia]. rewrite C. apply Zmod_0_l'.
  - intros k Hk Hn. destruct (Hus k Hk Hn) as (H1 & _ & H2). auto.
Qed.

Lemma C11_aux A Rd s p : wf_mat A -> prime p -> (ncols A <= length Rd)%nat ->
  ((forall j, (s <= j < ncols A)%nat ->
     (forall k l i, (k < s)%nat -> (l < s)%nat -> nth k Rd 0 <= nth j Rd 0 -> nth l Rd 0 <= nth j Rd 0 ->
        pivot_at (vmod (col A k) p) i -> pivot_at (vmod (col A l) p) i ->
        vmod (col A k) p = vmod (col A l) p) /\
     exists y, (forall k, ~ ((k < s)%nat /\ nth k Rd 0 <= nth j Rd 0) -> y k = 0) /\
       forall i, (i < nrows A)%nat ->
         Zsum (ncols A) (fun k => y k * get A i k) mod p = get A i j mod p) ->
   exists Red T, gauss_col_rad A Rd s p = Ok (Red, T)) /\
  (forall e, gauss_col_rad A Rd s p = Err e -> e = RuntimeError).
Proof.
  intros HA Hp HR. pose proof (prime_ge_2 p Hp) as Hp2. split.
  - intros H. apply gauss_col_rad_complete; auto. intros j Hj. destruct (H j Hj) as [H1 (y & Hy0 & Hy)].
    split.
    + intros k l (K1 & K2 & K3) (L1 & L2 & L3) E.
      destruct (index_pivot_cases (vmod (col A k) p)) as [[Z1 E1]|(i & P1 & E1)].
      * rewrite E1 in E. symmetry in E. pose proof (proj1 (index_pivot_m1 _) E) as Z2.
        apply (nth_ext _ _ 0 0).
        -- unfold vmod. rewrite !map_length. rewrite !wf_col; auto.
        -- intros i _. rewrite (Z1 i : nth i _ 0 = 0). symmetry. apply Z2.
      * apply (H1 k l i); auto. apply pivot_at_index. congruence.
    + exists y. split.
      * intros k Hk. destruct (lt_dec k (ncols A)) as [Hkn|Hkn].
        -- apply Hy0. intros [X1 X2]. apply Hk. repeat split; auto.
        -- apply Hy0. intros [X1 X2]. lia.
      * intros i Hi. apply cong_iff_mod; [lia|]. auto.
  - intros e E. eapply gauss_col_rad_err; eauto.
Qed.

Lemma C12_aux A rb cb s p : prime p -> reduced_mat p A -> (0 < s <= ncols A)%nat -> (ncols A <= length cb)%nat ->
  (forall X, gauss_barcodes A rb cb s p = Ok X ->
    nrows X = s /\ ncols X = (ncols A - s)%nat /\
    forall j, (s <= j < ncols A)%nat ->
      let b := fst (nth j cb (0, 0)) in
      (forall k, (k < s)%nat -> 0 <= get X k (j - s) < p) /\
      (forall k, (k < s)%nat -> ~ bar_alive cb k b -> get X k (j - s) = 0) /\
      (forall i, bar_alive rb i b ->
         Zsum s (fun k => get X k (j - s) * get A i k) mod p = get A i j mod p)) /\
  ((forall j, (s <= j < ncols A)%nat ->
      let b := fst (nth j cb (0, 0)) in
      exists y, (forall k, ~ bar_alive cb k b -> y k = 0) /\
        forall i, bar_alive rb i b -> Zsum s (fun k => y k * get A i k) mod p = get A i j mod p) <->
   exists X, gauss_barcodes A rb cb s p = Ok X) /\
  (forall e, gauss_barcodes A rb cb s p = Err e -> e = RuntimeError).
Proof.
  intros Hp Hr Hs Hcb. pose proof (prime_ge_2 p Hp) as Hp2. apply reduced_mat_rng in Hr; [|lia].
  assert (S1 : forall X, gauss_barcodes A rb cb s p = Ok X ->
    nrows X = s /\ ncols X = (ncols A - s)%nat /\
    forall j, (s <= j < ncols A)%nat ->
      let b := fst (nth j cb (0, 0)) in
      (forall k, (k < s)%nat -> 0 <= get X k (j - s) < p) /\
      (forall k, (k < s)%nat -> ~ bar_alive cb k b -> get X k (j - s) = 0) /\
      (forall i, bar_alive rb i b ->
         Zsum s (fun k => get X k (j - s) * get A i k) mod p = get A i j mod p)).
  { intros X E. apply gauss_barcodes_sound in E; auto; try lia.
    destruct E as (E1 & E2 & E3). split; auto. split; auto. intros j Hj b. destruct (E3 j Hj) as (F1 & F2 & F3).
    split; [intros; apply F1|]. split; [exact F2|]. intros i Hi. apply cong_iff_mod; [lia|]. apply F3. exact Hi. }
  split; auto. split; [split|].
  - intros H. apply gauss_barcodes_complete; auto. intros j Hj b. destruct (H j Hj) as (y & Y0 & Y1).
    exists y. split; [exact Y0|]. intros i Hi. apply cong_iff_mod; [lia|]. apply Y1. exact Hi.
  - intros [X E] j Hj b. destruct (S1 X E) as (_ & _ & H). destruct (H j Hj) as (_ & H2 & H3).
    exists (fun k => if Nat.ltb k s then get X k (j - s) else 0). split.
    + intros k Hk. destruct (Nat.ltb_spec k s); auto.
    + intros i Hi. rewrite <- (H3 i Hi). f_equal. apply Zsum_ext. intros k Hk.
      destruct (Nat.ltb_spec k s); auto. lia.
  - intros e E. eapply gauss_barcodes_err; eauto.
Qed.
