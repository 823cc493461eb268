(** * Proofs about [solve_mod_p], [solve_matrix_mod_p]. *)
From Verif Require Import Base ListX Lin Gauss_model Gauss_arith Gauss_col.
From Coq Require Import Znumtheory.
Local Open Scope Z_scope.

Lemma rng_piv p v i : rng p v -> last_nonzero v i -> is_piv p (vget v) i.
Proof.
  intros Hr (_ & Hn & Hz). split.
  - intros C. apply Hn. apply (cong0_small p); auto.
  - intros j Hj. rewrite Hz by auto. reflexivity.
Qed.

Lemma piv_rng p v i : rng p v -> is_piv p (vget v) i -> last_nonzero v i.
Proof.
  intros Hr [Hn Hz].
  assert (H : vget v i <> 0) by (intros E; apply Hn; rewrite E; reflexivity).
  split; [|split; auto].
  - destruct (lt_dec i (length v)); auto. elim H. apply vget_out; lia.
  - intros j Hj. apply (cong0_small p); auto.
Qed.

Lemma rng_zero p v : rng p v -> veq p (vget v) fzero -> forall i, vget v i = 0.
Proof. intros Hr H i. apply (cong0_small p); auto. apply H. Qed.

(** Pivot of a column as a natural number (0 for a zero column; only used under
    a nonzero guard). *)
Definition npiv (v : vec) : nat := Z.to_nat (index_pivot v).

Lemma npiv_spec v : index_pivot v <> -1 -> last_nonzero v (npiv v).
Proof.
  intros H. destruct (index_pivot_cases v) as [[_ E]|(i & Hi & E)]; [congruence|].
  unfold npiv. rewrite E, Nat2Z.id. auto.
Qed.

(** Columns as a family *)
Definition cfam (A : mat) (n : nat) : fvec -> Prop := fam n (fun _ => true) (fun k => vget (col A k)).

Section Prefix.
Variables (p : Z) (A R T : mat).
Hypothesis G : gauss_ok p A R T.

(** A column of R is the column of A plus earlier columns of A. *)
Lemma gauss_col_split j : (j < ncols A)%nat -> forall i,
  cong p (get R i j) (get A i j + lc j (vget (col T j)) (fun k => vget (col A k)) i).
Proof.
  intros Hj i. pose proof (go_prod p A R T G j Hj i) as H. unfold get at 1. rewrite H.
  unfold lc. rewrite (Zsum_trunc (ncols A) (S j)); [|lia|].
  - simpl. change (vget (col T j) j) with (get T j j). rewrite (go_diag p A R T G j Hj).
    apply cong_eq. unfold get. ring.
  - intros k Hk. change (vget (col T j) k) with (get T k j).
    rewrite (go_upper p A R T G k j) by lia. ring.
Qed.

Lemma prefix_R_in_A n j : (n <= ncols A)%nat -> (j < n)%nat -> span p (cfam A n) (vget (col R j)).
Proof.
  intros Hn Hj.
  apply (span_veq p _ (lc (S j) (fun k => if Nat.eqb k j then 1 else vget (col T j) k) (fun k => vget (col A k)))).
  - intros i. symmetry. change (vget (col R j) i) with (get R i j). rewrite gauss_col_split by lia.
    unfold lc. simpl. rewrite Nat.eqb_refl. rewrite (Zsum_ext j (fun k => (if Nat.eqb k j then 1 else vget (col T j) k) * vget (col A k) i)
      (fun k => vget (col T j) k * vget (col A k) i)).
    + apply cong_eq. unfold get. ring.
    + intros k Hk. destruct (Nat.eqb_spec k j); auto. lia.
  - apply (span_mono p (fam (S j) (fun _ => true) (fun k => vget (col A k)))).
    + intros u (k & Hk & _ & ->). exists k. repeat split; auto. lia.
    + apply lc_in_span. discriminate.
Qed.

Lemma prefix_A_in_R n : (n <= ncols A)%nat -> forall j, (j < n)%nat -> span p (cfam R n) (vget (col A j)).
Proof.
  intros Hn j. induction j as [j IH] using lt_wf_ind. intros Hj.
  assert (Hlc : span p (cfam R n) (lc j (vget (col T j)) (fun k => vget (col A k)))).
  { apply (span_incl p (fam j (fun _ => true) (fun k => vget (col A k)))).
    - intros u (k & Hk & _ & ->). apply IH; lia.
    - apply lc_in_span. discriminate. }
  apply (span_comb p _ 1 (vget (col R j)) (-1) (lc j (vget (col T j)) (fun k => vget (col A k)))); auto.
  - apply span_in. exists j. auto.
  - intros i. change (vget (col R j) i) with (get R i j). rewrite gauss_col_split by lia.
    apply cong_eq. unfold get. ring.
Qed.

Lemma prefix_span n v : (n <= ncols A)%nat -> span p (cfam A n) v <-> span p (cfam R n) v.
Proof.
  intros Hn. split; apply span_incl.
  - intros u (k & Hk & _ & ->). apply prefix_A_in_R; auto.
  - intros u (k & Hk & _ & ->). apply prefix_R_in_A; auto.
Qed.

Hypothesis Hp : prime p.
Hypothesis HA : forall k, (k < ncols A)%nat -> rng p (col A k).

Definition nzb (k : nat) : bool := negb (index_pivot (col R k) =? -1).

Lemma nzb_piv k : (k < ncols A)%nat -> nzb k = true -> is_piv p (vget (col R k)) (npiv (col R k)).
Proof.
  intros Hk H. apply rng_piv; [apply (go_rngR p A R T G HA k Hk)|].
  apply npiv_spec. unfold nzb in H. destruct (Z.eqb_spec (index_pivot (col R k)) (-1)); auto. discriminate.
Qed.

Lemma nzb_distinct k l : (k < ncols A)%nat -> (l < ncols A)%nat -> nzb k = true -> nzb l = true ->
  npiv (col R k) = npiv (col R l) -> k = l.
Proof.
  intros Hk Hl H1 H2 E. unfold nzb in *.
  destruct (Z.eqb_spec (index_pivot (col R k)) (-1)) as [|N1]; [discriminate|].
  destruct (Z.eqb_spec (index_pivot (col R l)) (-1)) as [|N2]; [discriminate|].
  assert (E' : index_pivot (col R k) = index_pivot (col R l)).
  { unfold npiv in E. pose proof (index_pivot_ge (col R k)). pose proof (index_pivot_ge (col R l)). lia. }
  destruct (lt_eq_lt_dec k l) as [[H|H]|H]; auto; exfalso.
  - apply N2. apply (go_piv p A R T G k l); auto.
  - apply N1. apply (go_piv p A R T G l k); auto.
Qed.

Lemma cfam_nz n v : span p (cfam R n) v -> span p (fam n nzb (fun k => vget (col R k))) v.
Proof.
  apply span_incl. intros u (k & Hk & _ & ->).
  destruct (nzb k) eqn:E.
  - apply span_in. exists k. auto.
  - apply span_0. unfold nzb in E. destruct (Z.eqb_spec (index_pivot (col R k)) (-1)) as [E'|]; [|discriminate].
    intros i. rewrite (proj1 (index_pivot_m1 _) E' i). reflexivity.
Qed.

(** The column [R_n] is zero when [A_n] lies in the span of the earlier columns. *)
Lemma gauss_dep_zero n : (n < ncols A)%nat -> span p (cfam A n) (vget (col A n)) -> forall i, get R i n = 0.
Proof.
  intros Hn Hs.
  assert (HR : span p (cfam A n) (vget (col R n))).
  { apply (span_comb p _ 1 (vget (col A n)) 1 (lc n (vget (col T n)) (fun k => vget (col A k)))); auto.
    - apply lc_in_span. discriminate.
    - intros i. change (vget (col R n) i) with (get R i n). rewrite gauss_col_split by auto.
      apply cong_eq. unfold get. ring. }
  apply prefix_span in HR; [|lia]. apply cfam_nz in HR.
  destruct (nzb n) eqn:En.
  - exfalso. pose proof (nzb_piv n Hn En) as Hpn.
    destruct (piv_in_span p Hp n nzb (fun k => vget (col R k)) (fun k => npiv (col R k))
        (vget (col R n)) (npiv (col R n)))
      as (k & Hk & Hk1 & Hk2).
    + intros k Hk. apply nzb_piv. lia.
    + intros k l Hk Hl. apply nzb_distinct; lia.
    + exact HR.
    + exact Hpn.
    + assert (k = n) by (apply nzb_distinct; auto; lia). lia.
  - unfold nzb in En. destruct (Z.eqb_spec (index_pivot (col R n)) (-1)) as [E'|]; [|discriminate].
    exact (proj1 (index_pivot_m1 _) E').
Qed.

(** Nonzero reduced columns are linearly independent. *)
Lemma gauss_indep c :
  (forall k, nzb k = false -> c k = 0) ->
  veq p (lc (ncols A) c (fun k => vget (col R k))) fzero ->
  forall k, (k < ncols A)%nat -> cong p (c k) 0.
Proof.
  intros Hc Hz.
  assert (Hnz : forall k, ~ cong p (c k) 0 -> nzb k = true).
  { intros k H. destruct (nzb k) eqn:E; auto. elim H. rewrite Hc by auto. reflexivity. }
  apply (piv_indep p Hp (ncols A) (fun k => vget (col R k)) (fun k => npiv (col R k)) c); auto.
  - intros k Hk H. apply nzb_piv; auto.
  - intros k l Hk Hl H1 H2. apply nzb_distinct; auto.
Qed.

End Prefix.

(** ** Augmented matrices *)
Lemma col_mappend_l A B k : (k < ncols A)%nat -> col (mappend A B) k = col A k.
Proof. intros H. unfold col, mappend. cbn [cols]. apply app_nth1. exact H. Qed.
Lemma col_mappend_r A B k : (ncols A <= k)%nat -> col (mappend A B) k = col B (k - ncols A).
Proof. intros H. unfold col, mappend. cbn [cols]. apply app_nth2. exact H. Qed.
Lemma ncols_mappend A B : ncols (mappend A B) = (ncols A + ncols B)%nat.
Proof. unfold ncols, mappend. cbn [cols]. apply app_length. Qed.

Lemma wf_mappend A B : wf_mat A -> wf_mat B -> nrows B = nrows A -> wf_mat (mappend A B).
Proof.
  unfold wf_mat, mappend. cbn [cols nrows]. intros HA HB E. apply Forall_app. split; auto. rewrite <- E. auto.
Qed.

Lemma mtr_dims B : nrows (mtr B) = ncols B /\ ncols (mtr B) = nrows B.
Proof. unfold mtr, ncols. cbn [nrows cols]. rewrite map_length, seq_length. auto. Qed.

Lemma wf_mtr B : wf_mat (mtr B).
Proof.
  unfold wf_mat, mtr. cbn [nrows cols]. apply Forall_forall. intros c Hc.
  apply in_map_iff in Hc. destruct Hc as (i & <- & _). rewrite map_length. reflexivity.
Qed.

Lemma get_mtr B i j : (i < ncols B)%nat -> (j < nrows B)%nat -> get (mtr B) i j = get B j i.
Proof.
  intros Hi Hj. unfold get, col, mtr. cbn [cols].
  rewrite (nth_indep _ [] (map (fun c => vget c 0) (cols B))) by (rewrite map_length, seq_length; auto).
  rewrite (map_nth (fun i => map (fun c => vget c i) (cols B)) _ 0%nat).
  rewrite seq_nth by auto. rewrite (vget_nth_map (fun c : vec => vget c (0 + j)) ([] : vec)) by auto. reflexivity.
Qed.

Lemma vget_firstn v n i : (i < n)%nat -> vget (firstn n v) i = vget v i.
Proof.
  unfold vget. revert v i. induction n as [|n IH]; intros v i H; [lia|].
  destruct v as [|x v]; simpl; [destruct i; reflexivity|].
  destruct i as [|i]; auto. apply IH. lia.
Qed.

Lemma vget_neg_mod v p i : vget (map (fun x => (- x) mod p) v) i = (- vget v i) mod p.
Proof. rewrite (vget_map (fun x => (- x) mod p)); auto. Qed.

(** Soundness of reading a solution off a zero column. *)
Lemma read_solution p A R T j n : gauss_ok p A R T -> (j < ncols A)%nat -> (n <= j)%nat ->
  (forall k, (n <= k < j)%nat -> vget (col T j) k = 0) ->
  (forall i, get R i j = 0) ->
  forall i, cong p (Zsum n (fun k => ((- get T k j) mod p) * get A i k)) (get A i j).
Proof.
  intros G Hj Hn Hz HR i.
  pose proof (gauss_col_split p A R T G j Hj i) as H. rewrite HR in H.
  unfold lc in H. rewrite (Zsum_trunc j n) in H; auto; [|intros k Hk; rewrite Hz by lia; ring].
  rewrite (Zsum_cong p n _ (fun k => - (vget (col T j) k * vget (col A k) i))).
  - rewrite Zsum_opp. transitivity (get A i j - (get A i j + Zsum n (fun k => vget (col T j) k * vget (col A k) i))).
    + apply cong_eq; ring.
    + rewrite <- H. apply cong_eq; ring.
  - intros k Hk. rewrite cong_mod. apply cong_eq. unfold get. ring.
Qed.

Lemma col_single m v : col (Mat m [v]) 0 = v.
Proof. reflexivity. Qed.

Lemma solve_mod_p_sound p A b x : 2 <= p -> wf_mat A ->
  solve_mod_p A b p = Ok x ->
  length x = ncols A /\ rng p x /\ length b = nrows A /\
  forall i, (i < nrows A)%nat -> cong p (Zsum (ncols A) (fun k => vget x k * get A i k)) (vget b i).
Proof.
  intros Hp HA. unfold solve_mod_p.
  destruct (Nat.eqb_spec (length b) (nrows A)) as [Hb|]; [|discriminate]. cbn [negb].
  set (AB := mappend A (Mat (length b) [b])).
  assert (HwAB : wf_mat AB).
  { apply wf_mappend; auto. unfold wf_mat. cbn. constructor; auto. }
  assert (HnAB : ncols AB = S (ncols A)).
  { unfold AB. rewrite ncols_mappend. cbn. lia. }
  destruct (gauss_col AB p) as [[R T]|] eqn:E; [|discriminate]. cbn [bind].
  destruct (Nat.eq_dec (nrows A) 0) as [H0|H0].
  { unfold gauss_col in E. cbn [AB nrows mappend] in E. rewrite H0 in E. cbn [Nat.eqb] in E.
    injection E as <- <-. cbn. discriminate. }
  pose proof (gauss_col_correct p AB R T Hp HwAB H0 E) as G.
  destruct (Nat.ltb_spec (ncols A) (ncols R)) as [Hlt|]; [|discriminate].
  destruct (vany (col R (ncols A))) eqn:Ev; [discriminate|].
  intros H; injection H as <-.
  assert (HlT : length (col T (ncols A)) = S (ncols A)).
  { rewrite (go_lenT p AB R T G) by lia. auto. }
  split; [|split; [|split; auto]].
  - rewrite map_length, firstn_length, HlT. lia.
  - intros i. rewrite vget_neg_mod. apply Z.mod_pos_bound. lia.
  - intros i Hi.
    pose proof (read_solution p AB R T (ncols A) (ncols A) G ltac:(lia) ltac:(lia)) as HS.
    specialize (HS ltac:(intros; lia)). specialize (HS (proj1 (vany_false _) Ev) i).
    unfold get in HS at 3. unfold AB in HS at 2. rewrite col_mappend_r, Nat.sub_diag, col_single in HS by lia.
    rewrite <- HS. apply cong_eq. apply Zsum_ext. intros k Hk.
    rewrite vget_neg_mod, vget_firstn by auto.
    unfold get, AB. rewrite (col_mappend_l A) by auto. reflexivity.
Qed.

(** Families of columns: a solution witnesses span membership. *)
Lemma solution_span p A n y v :
  (forall i, cong p (Zsum n (fun k => y k * get A i k)) (v i)) -> span p (cfam A n) v.
Proof.
  intros H. apply (span_veq p _ (lc n y (fun k => vget (col A k)))).
  - intros i. rewrite <- (H i). reflexivity.
  - apply lc_in_span. discriminate.
Qed.

Lemma get_wf_out A i k : wf_mat A -> (nrows A <= i)%nat -> get A i k = 0.
Proof.
  intros HA Hi. unfold get. destruct (lt_dec k (ncols A)) as [Hk|Hk].
  - apply vget_out. rewrite wf_col; auto.
  - unfold col. rewrite nth_overflow by (unfold ncols in Hk; lia). destruct i; reflexivity.
Qed.

Definition rng_mat (p : Z) (A : mat) : Prop := forall k, (k < ncols A)%nat -> rng p (col A k).

Lemma rng_mappend p A B : rng_mat p A -> rng_mat p B -> rng_mat p (mappend A B).
Proof.
  intros HA HB k Hk. rewrite ncols_mappend in Hk. destruct (lt_dec k (ncols A)).
  - rewrite col_mappend_l; auto.
  - rewrite col_mappend_r by lia. apply HB. lia.
Qed.

Lemma solve_mod_p_complete p A b y : prime p -> wf_mat A -> rng_mat p A -> rng p b ->
  length b = nrows A -> (nrows A <> 0)%nat ->
  (forall i, (i < nrows A)%nat -> cong p (Zsum (ncols A) (fun k => y k * get A i k)) (vget b i)) ->
  exists x, solve_mod_p A b p = Ok x.
Proof.
  intros Hp HA Hr Hrb Hb H0 Hy. pose proof (prime_ge_2 p Hp) as Hp2.
  unfold solve_mod_p. rewrite Hb, Nat.eqb_refl. cbn [negb].
  set (AB := mappend A (Mat (nrows A) [b])).
  assert (HwAB : wf_mat AB).
  { apply wf_mappend; auto. unfold wf_mat. cbn. constructor; auto. }
  assert (HnAB : ncols AB = S (ncols A)).
  { unfold AB. rewrite ncols_mappend. cbn. lia. }
  assert (HrAB : rng_mat p AB).
  { apply rng_mappend; auto. intros k Hk. unfold ncols in Hk. cbn in Hk. assert (k = 0)%nat as -> by lia. auto. }
  destruct (gauss_col_total p AB Hp HwAB HrAB) as (R & T & E). rewrite E. cbn [bind].
  pose proof (gauss_col_correct p AB R T Hp2 HwAB H0 E) as G.
  rewrite (go_ncR p AB R T G), HnAB. destruct (Nat.ltb_spec (ncols A) (S (ncols A))); [|lia].
  assert (Hz : forall i, get R i (ncols A) = 0).
  { apply (gauss_dep_zero p AB R T G Hp HrAB); [lia|].
    apply (solution_span p AB (ncols A) y). intros i.
    unfold AB at 2. rewrite col_mappend_r, Nat.sub_diag, col_single by lia.
    destruct (lt_dec i (nrows A)) as [Hi|Hi].
    - rewrite <- (Hy i Hi). apply cong_eq. apply Zsum_ext. intros k Hk. unfold get, AB.
      rewrite col_mappend_l; auto.
    - rewrite vget_out by lia. rewrite Zsum_0; [reflexivity|]. intros k Hk.
      rewrite get_wf_out; [ring|auto|]. unfold AB. cbn. lia. }
  assert (Hv : vany (col R (ncols A)) = false) by (apply vany_false; exact Hz).
  rewrite Hv. eauto.
Qed.

(** When there is no solution the result is [ValueError]. *)
Lemma solve_mod_p_error p A b : prime p -> wf_mat A -> rng_mat p A -> rng p b ->
  length b = nrows A -> (nrows A <> 0)%nat ->
  ~ (exists y, forall i, (i < nrows A)%nat -> cong p (Zsum (ncols A) (fun k => y k * get A i k)) (vget b i)) ->
  solve_mod_p A b p = Err ValueError.
Proof.
  intros Hp HA Hr Hrb Hb H0 Hno. pose proof (prime_ge_2 p Hp) as Hp2.
  destruct (solve_mod_p A b p) as [x|e] eqn:E.
  - exfalso. apply Hno. exists (vget x). apply (solve_mod_p_sound p A b x Hp2 HA E).
  - unfold solve_mod_p in E. rewrite Hb, Nat.eqb_refl in E. cbn [negb] in E.
    set (AB := mappend A (Mat (nrows A) [b])) in *.
    assert (HwAB : wf_mat AB).
    { apply wf_mappend; auto. unfold wf_mat. cbn. constructor; auto. }
    assert (HrAB : rng_mat p AB).
    { apply rng_mappend; auto. intros k Hk. unfold ncols in Hk. cbn in Hk. assert (k = 0)%nat as -> by lia. auto. }
    destruct (gauss_col_total p AB Hp HwAB HrAB) as (R & T & E'). rewrite E' in E. cbn [bind] in E.
    pose proof (gauss_col_correct p AB R T Hp2 HwAB H0 E') as G.
    rewrite (go_ncR p AB R T G) in E. unfold AB in E at 1. rewrite ncols_mappend in E.
    change (ncols (Mat (nrows A) [b])) with 1%nat in E.
    destruct (Nat.ltb_spec (ncols A) (ncols A + 1)); [|lia].
    destruct (vany _); [|discriminate]. injection E as <-. reflexivity.
Qed.

(** ** solve_matrix_mod_p *)
Lemma existsb_vany_skipn R n : existsb vany (skipn n (cols R)) = false <->
  forall j, (n <= j < ncols R)%nat -> forall i, get R i j = 0.
Proof.
  split.
  - intros H j Hj. apply (proj1 (vany_false _)).
    destruct (vany (col R j)) eqn:E; auto.
    assert (T : existsb vany (skipn n (cols R)) = true); [|congruence].
    apply existsb_exists. exists (col R j). split; auto.
    unfold col. replace j with (n + (j - n))%nat by lia. rewrite <- nth_skipn. apply nth_In.
    rewrite skipn_length. unfold ncols in Hj. lia.
  - intros H. destruct (existsb vany (skipn n (cols R))) eqn:E; auto.
    apply existsb_exists in E. destruct E as (c & Hc & Hv).
    apply In_nth with (d := []) in Hc. destruct Hc as (k & Hk & Ek). rewrite skipn_length in Hk.
    rewrite nth_skipn in Ek. assert (Hz : vany c = false); [|congruence].
    apply vany_false. intros i. rewrite <- Ek. apply (H (n + k)%nat). unfold ncols. lia.
Qed.

Lemma solve_matrix_sound p A B X : 2 <= p -> wf_mat A ->
  solve_matrix_mod_p A B p = Ok X ->
  nrows X = ncols A /\ ncols X = nrows B /\ ncols B = nrows A /\
  forall i j, (i < nrows A)%nat -> (j < nrows B)%nat ->
    cong p (Zsum (ncols A) (fun k => get A i k * get X k j)) (get B j i).
Proof.
  intros Hp HA. unfold solve_matrix_mod_p.
  destruct (Nat.eqb_spec (ncols B) (nrows A)) as [Hb|]; [|discriminate]. cbn [negb].
  set (AB := mappend A (mtr B)).
  destruct (mtr_dims B) as [Mr Mc].
  assert (HwAB : wf_mat AB) by (apply wf_mappend; auto using wf_mtr; lia).
  assert (HnAB : ncols AB = (ncols A + nrows B)%nat) by (unfold AB; rewrite ncols_mappend; lia).
  destruct (gauss_col AB p) as [[R T]|] eqn:E; [|discriminate]. cbn [bind].
  destruct (Nat.eqb_spec (nrows A) 0) as [H0|H0]; [discriminate|].
  pose proof (gauss_col_correct p AB R T Hp HwAB H0 E) as G.
  destruct (existsb vany (skipn (ncols A) (cols R))) eqn:Ev; [discriminate|].
  intros H; injection H as <-.
  pose proof (proj1 (existsb_vany_skipn R (ncols A)) Ev) as HZ.
  assert (HlT : length (cols T) = (ncols A + nrows B)%nat).
  { change (length (cols T)) with (ncols T). rewrite (go_ncT p AB R T G). auto. }
  split; [reflexivity|]. split; [|split; auto].
  - unfold ncols at 1. cbn [cols]. rewrite map_length, skipn_length. lia.
  - intros i j Hi Hj.
    set (j' := (ncols A + j)%nat).
    pose proof (read_solution p AB R T j' (ncols A) G ltac:(unfold j'; lia) ltac:(unfold j'; lia)) as HS.
    assert (Hz0 : forall k, (ncols A <= k < j')%nat -> vget (col T j') k = 0).
    { intros k Hk. change (vget (col T j') k) with (get T k j').
      apply (go_red p AB R T G); [unfold j' in *; lia|]. intros a. apply HZ.
      rewrite (go_ncR p AB R T G). unfold j' in *; lia. }
    specialize (HS Hz0).
    assert (HR0 : forall a, get R a j' = 0).
    { intros a. apply HZ. rewrite (go_ncR p AB R T G). unfold j'; lia. }
    specialize (HS HR0 i).
    unfold get in HS at 3. unfold AB in HS at 2. rewrite col_mappend_r in HS by (unfold j'; lia).
    replace (j' - ncols A)%nat with j in HS by (unfold j'; lia).
    change (vget (col (mtr B) j) i) with (get (mtr B) i j) in HS.
    rewrite get_mtr in HS by lia. rewrite <- HS. apply cong_eq. apply Zsum_ext. intros k Hk.
    unfold get at 2. unfold col at 1. cbn [cols].
    rewrite (nth_indep _ [] (map (fun x => (- x) mod p) (firstn (ncols A) [])))
      by (rewrite map_length, skipn_length; lia).
    rewrite (map_nth (fun c => map (fun x => (- x) mod p) (firstn (ncols A) c))).
    rewrite nth_skipn, vget_neg_mod, vget_firstn by auto.
    fold j'. change (nth j' (cols T) []) with (col T j').
    unfold get, AB. rewrite (col_mappend_l A) by auto. ring.
Qed.

Lemma solve_matrix_complete p A B Y : prime p -> wf_mat A -> rng_mat p A -> wf_mat B -> rng_mat p B ->
  ncols B = nrows A -> (nrows A <> 0)%nat ->
  (forall i j, (i < nrows A)%nat -> (j < nrows B)%nat ->
    cong p (Zsum (ncols A) (fun k => get A i k * Y k j)) (get B j i)) ->
  exists X, solve_matrix_mod_p A B p = Ok X.
Proof.
  intros Hp HA Hr HB HrB Hb H0 HY. pose proof (prime_ge_2 p Hp) as Hp2.
  unfold solve_matrix_mod_p. rewrite Hb, Nat.eqb_refl. cbn [negb].
  set (AB := mappend A (mtr B)).
  destruct (mtr_dims B) as [Mr Mc].
  assert (HwAB : wf_mat AB) by (apply wf_mappend; auto using wf_mtr; lia).
  assert (HnAB : ncols AB = (ncols A + nrows B)%nat) by (unfold AB; rewrite ncols_mappend; lia).
  assert (HrAB : rng_mat p AB).
  { apply rng_mappend; auto. intros j Hj i. change (vget (col (mtr B) j) i) with (get (mtr B) i j).
    destruct (lt_dec i (ncols B)) as [Hi|Hi].
    - rewrite get_mtr by lia. unfold get. apply HrB; auto.
    - rewrite get_wf_out by (auto using wf_mtr; lia). lia. }
  destruct (gauss_col_total p AB Hp HwAB HrAB) as (R & T & E). rewrite E. cbn [bind].
  destruct (Nat.eqb_spec (nrows A) 0); [lia|].
  pose proof (gauss_col_correct p AB R T Hp2 HwAB H0 E) as G.
  assert (Hz : existsb vany (skipn (ncols A) (cols R)) = false).
  { apply existsb_vany_skipn. intros j Hj. rewrite (go_ncR p AB R T G), HnAB in Hj.
    apply (gauss_dep_zero p AB R T G Hp HrAB); [lia|].
    apply (span_mono p (cfam AB (ncols A))).
    { intros u (k & Hk & _ & ->). exists k. repeat split; auto; lia. }
    apply (solution_span p AB (ncols A) (fun k => Y k (j - ncols A)%nat)). intros i.
    unfold AB at 2. rewrite col_mappend_r by lia.
    change (vget (col (mtr B) (j - ncols A)) i) with (get (mtr B) i (j - ncols A)).
    destruct (lt_dec i (nrows A)) as [Hi|Hi].
    - rewrite get_mtr by lia. rewrite <- (HY i (j - ncols A)%nat) by lia.
      apply cong_eq. apply Zsum_ext. intros k Hk. unfold get, AB.
      rewrite col_mappend_l by auto. ring.
    - rewrite (get_wf_out (mtr B)) by (auto using wf_mtr; lia).
      rewrite Zsum_0; [reflexivity|]. intros k Hk.
      rewrite get_wf_out; [ring|auto|]. unfold AB. cbn. lia. }
  rewrite Hz. eauto.
Qed.
