(** * Proofs about [gauss_barcodes]. *)
From Verif Require Import Base ListX Lin Gauss_model Gauss_arith Gauss_col Gauss_solve.
From Coq Require Import Znumtheory.
Local Open Scope Z_scope.

Lemma nth_take_cols A js k : (k < length js)%nat -> col (take_cols A js) k = col A (nth k js 0%nat).
Proof. intros H. unfold col at 1, take_cols. cbn [cols]. rewrite (nth_map (col A) js k 0%nat) by auto. reflexivity. Qed.

Lemma col_take_rows A rows k : (k < ncols A)%nat -> col (take_rows A rows) k = map (vget (col A k)) rows.
Proof.
  intros H. unfold col at 1, take_rows. cbn [cols].
  rewrite (nth_map (fun c => map (vget c) rows) (cols A) k []) by auto. reflexivity.
Qed.

Lemma get_sub A rows js a c : (a < length rows)%nat -> (c < length js)%nat -> (nth c js 0 < ncols A)%nat ->
  get (take_cols (take_rows A rows) js) a c = get A (nth a rows 0%nat) (nth c js 0%nat).
Proof.
  intros Ha Hc Hj. unfold get. rewrite nth_take_cols by auto. rewrite col_take_rows by auto.
  apply (vget_nth_map (vget (col A (nth c js 0%nat))) 0%nat). auto.
Qed.

Lemma wf_sub A rows js : (forall j, In j js -> (j < ncols A)%nat) -> wf_mat (take_cols (take_rows A rows) js).
Proof.
  intros H. unfold wf_mat. cbn [take_cols cols nrows take_rows]. apply Forall_forall. intros c Hc.
  apply in_map_iff in Hc. destruct Hc as (j & <- & Hj). fold (take_rows A rows).
  rewrite col_take_rows by auto. apply map_length.
Qed.

Lemma rng_sub p A rows js : 0 < p -> rng_mat p A -> (forall j, In j js -> (j < ncols A)%nat) ->
  rng_mat p (take_cols (take_rows A rows) js).
Proof.
  intros Hp HA H k Hk i. unfold ncols, take_cols in Hk. cbn [cols] in Hk. rewrite map_length in Hk.
  rewrite nth_take_cols by auto.
  assert (Hj : (nth k js 0 < ncols A)%nat) by (apply H; apply nth_In; auto).
  rewrite col_take_rows by auto.
  destruct (lt_dec i (length rows)) as [Hi|Hi].
  - rewrite (vget_nth_map _ 0%nat) by auto. apply HA; auto.
  - rewrite vget_out by (rewrite map_length; lia). lia.
Qed.

Lemma in_active_idx bars b k : In k (active_idx bars b) <->
  (k < length bars)%nat /\ fst (nth k bars (0, 0)) <= b < snd (nth k bars (0, 0)).
Proof.
  unfold active_idx. rewrite filter_In, in_seq.
  destruct (nth k bars (0, 0)) as [x y]. cbn [fst snd].
  rewrite andb_true_iff, Z.leb_le, Z.ltb_lt. intuition lia.
Qed.

Lemma NoDup_active bars b : NoDup (active_idx bars b).
Proof. apply NoDup_filter. apply seq_NoDup. Qed.

(** Scattering coefficients indexed by a duplicate-free list. *)
Definition scatter (x : nat -> Z) (l : list nat) (k : nat) : Z :=
  match find_idx (Nat.eqb k) l with Some i => x i | None => 0 end.

Lemma scatter_nth x l i : NoDup l -> (i < length l)%nat -> scatter x l (nth i l 0%nat) = x i.
Proof.
  intros Hd Hi. unfold scatter. destruct (find_idx (Nat.eqb (nth i l 0%nat)) l) as [c|] eqn:E.
  - apply (find_idx_Some _ _ _ 0%nat) in E. destruct E as (H1 & H2 & _). apply Nat.eqb_eq in H2.
    f_equal. symmetry. eapply (NoDup_nth l 0%nat); eauto.
  - rewrite find_idx_None in E. specialize (E (nth i l 0%nat) (nth_In _ _ Hi)). rewrite Nat.eqb_refl in E. discriminate.
Qed.

Lemma scatter_out x l k : ~ In k l -> scatter x l k = 0.
Proof.
  intros H. unfold scatter. destruct (find_idx (Nat.eqb k) l) as [c|] eqn:E; auto.
  apply (find_idx_Some _ _ _ 0%nat) in E. destruct E as (H1 & H2 & _). apply Nat.eqb_eq in H2.
  elim H. rewrite H2. apply nth_In; auto.
Qed.

Lemma Zsum_scatter s x f l : NoDup l -> (forall k, In k l -> (k < s)%nat) ->
  Zsum s (fun k => scatter x l k * f k) = Zsum (length l) (fun c => x c * f (nth c l 0%nat)).
Proof.
  intros Hd Hs.
  rewrite (Zsum_ext s _ (fun k => Zsum (length l) (fun c => if Nat.eqb (nth c l 0%nat) k then x c * f k else 0))).
  - rewrite Zsum_swap. apply Zsum_ext. intros c Hc.
    rewrite (Zsum_single s (nth c l 0%nat)).
    + rewrite Nat.eqb_refl. reflexivity.
    + apply Hs. apply nth_In; auto.
    + intros k Hk Hn. destruct (Nat.eqb_spec (nth c l 0%nat) k); congruence.
  - intros k Hk. destruct (in_dec Nat.eq_dec k l) as [Hin|Hin].
    + apply In_nth with (d := 0%nat) in Hin. destruct Hin as (i & Hi & <-).
      rewrite scatter_nth by auto. rewrite (Zsum_single (length l) i).
      * rewrite Nat.eqb_refl. reflexivity.
      * auto.
      * intros c Hc Hn. destruct (Nat.eqb_spec (nth c l 0%nat) (nth i l 0%nat)) as [E|]; auto.
        elim Hn. eapply (NoDup_nth l 0%nat); eauto.
    + rewrite scatter_out by auto. rewrite Zsum_0; [ring|]. intros c Hc.
      destruct (Nat.eqb_spec (nth c l 0%nat) k) as [<-|]; auto. elim Hin. apply nth_In; auto.
Qed.

Definition alive (bars : list (Z * Z)) (k : nat) (b : Z) : Prop :=
  (k < length bars)%nat /\ fst (nth k bars (0, 0)) <= b < snd (nth k bars (0, 0)).

Section Bar.
Variables (A : mat) (rb cb : list (Z * Z)) (s : nat) (p : Z) (j : nat).
Hypothesis Hp2 : 2 <= p.
Hypothesis Hs : (s <= j)%nat.
Hypothesis Hj : (j < ncols A)%nat.
Hypothesis Hcb : (ncols A <= length cb)%nat.
Let b := fst (nth j cb (0, 0)).
Let ar := active_idx rb b.
Let ac := active_idx (firstn s cb) b.
Let S := take_cols (take_rows A ar) (ac ++ [j]).

Lemma ac_lt k : In k ac <-> (k < s)%nat /\ alive cb k b.
Proof.
  unfold ac, alive. rewrite in_active_idx, firstn_length. split.
  - intros [H1 H2]. rewrite nth_firstn in H2 by lia. intuition lia.
  - intros (H1 & H2 & H3). split; [lia|]. rewrite nth_firstn by lia. auto.
Qed.

Lemma S_cols_ok k : In k (ac ++ [j]) -> (k < ncols A)%nat.
Proof. rewrite in_app_iff. intros [H|[<-|[]]]; auto. apply ac_lt in H. lia. Qed.

Lemma S_ncols : ncols S = Datatypes.S (length ac).
Proof. unfold S, ncols, take_cols. cbn [cols]. rewrite map_length, app_length. simpl. lia. Qed.

Lemma S_nrows : nrows S = length ar.
Proof. reflexivity. Qed.

Lemma S_get a c : (a < length ar)%nat -> (c < length ac)%nat ->
  get S a c = get A (nth a ar 0%nat) (nth c ac 0%nat).
Proof.
  intros Ha Hc. unfold S. rewrite get_sub; auto.
  - rewrite app_nth1 by auto. reflexivity.
  - rewrite app_length. lia.
  - apply S_cols_ok. apply nth_In. rewrite app_length; lia.
Qed.

Lemma S_get_last a : (a < length ar)%nat -> get S a (length ac) = get A (nth a ar 0%nat) j.
Proof.
  intros Ha. unfold S. rewrite get_sub; auto.
  - rewrite app_nth2, Nat.sub_diag by auto. reflexivity.
  - rewrite app_length. simpl. lia.
  - apply S_cols_ok. apply nth_In. rewrite app_length; simpl; lia.
Qed.

Lemma in_ar i : alive rb i b -> exists a, (a < length ar)%nat /\ nth a ar 0%nat = i.
Proof.
  intros H. assert (Hin : In i ar) by (apply in_active_idx; auto).
  apply In_nth with (d := 0%nat) in Hin. destruct Hin as (a & Ha & E). eauto.
Qed.

Lemma gauss_barcodes_col_sound x : gauss_barcodes_col A rb cb s p j = Ok x ->
  length x = s /\ rng p x /\
  (forall k, (k < s)%nat -> ~ alive cb k b -> vget x k = 0) /\
  (forall i, alive rb i b -> cong p (Zsum s (fun k => vget x k * get A i k)) (get A i j)).
Proof.
  unfold gauss_barcodes_col. fold b ar ac. destruct (Nat.eqb_spec (length ar) 0) as [H0|H0].
  - intros E; injection E as <-. repeat split.
    + apply repeat_length.
    + rewrite vget_vzero; lia.
    + rewrite vget_vzero; lia.
    + intros; apply vget_vzero.
    + intros i Hi. apply in_ar in Hi. destruct Hi as (a & Ha & _). lia.
  - destruct (Nat.eqb_spec s 0) as [|Hs0]; [discriminate|]. fold S.
    destruct (gauss_col S p) as [[R T]|] eqn:E; [|discriminate]. cbn [bind].
    destruct (vany (col R (length ac))) eqn:Ev; [discriminate|].
    intros X; injection X as <-.
    assert (G : gauss_ok p S R T).
    { apply gauss_col_correct; auto. apply wf_sub. apply S_cols_ok. }
    set (x := fun i => vget (map (fun i => (- vget (col T (length ac)) i) mod p) (seq 0 (length ac))) i).
    assert (Hx : forall k, (k < s)%nat ->
       vget (map (fun k => match find_idx (Nat.eqb k) ac with Some i => x i | None => 0 end) (seq 0 s)) k
       = scatter x ac k).
    { intros k Hk. rewrite (vget_nth_map _ 0%nat) by (rewrite seq_length; auto).
      rewrite seq_nth by auto. reflexivity. }
    assert (Hxe : forall c, (c < length ac)%nat -> x c = (- get T c (length ac)) mod p).
    { intros c Hc. unfold x. rewrite (vget_nth_map _ 0%nat) by (rewrite seq_length; auto).
      rewrite seq_nth by auto. reflexivity. }
    assert (Hxr : forall c, 0 <= x c < p).
    { intros c. destruct (lt_dec c (length ac)) as [Hc|Hc].
      - rewrite Hxe by auto. apply Z.mod_pos_bound. lia.
      - unfold x. rewrite vget_out; [lia|]. rewrite map_length, seq_length. lia. }
    split; [rewrite map_length, seq_length; auto|]. split; [|split].
    + intros k. destruct (lt_dec k s) as [Hk|Hk].
      * rewrite Hx by auto. unfold scatter. destruct (find_idx _ _); auto. lia.
      * rewrite vget_out; [lia|]. rewrite map_length, seq_length. lia.
    + intros k Hk Hna. rewrite Hx by auto. apply scatter_out. rewrite ac_lt. tauto.
    + intros i Hi. destruct (in_ar i Hi) as (a & Ha & <-).
      rewrite (Zsum_ext s _ (fun k => scatter x ac k * get A (nth a ar 0%nat) k))
        by (intros k Hk; rewrite <- Hx by auto; reflexivity).
      rewrite Zsum_scatter; [|apply NoDup_active|intros k Hk; apply ac_lt in Hk; lia].
      pose proof (read_solution p S R T (length ac) (length ac) G) as HS.
      rewrite S_ncols in HS. specialize (HS ltac:(lia) ltac:(lia) ltac:(intros; lia)).
      specialize (HS (proj1 (vany_false _) Ev) a). rewrite S_get_last in HS by auto. rewrite <- HS.
      apply cong_eq. apply Zsum_ext. intros c Hc. rewrite Hxe, S_get by auto. reflexivity.
Qed.

Lemma gauss_barcodes_col_complete y : prime p -> rng_mat p A ->
  (0 < s)%nat ->
  (forall k, ~ alive cb k b -> y k = 0) ->
  (forall i, alive rb i b -> cong p (Zsum s (fun k => y k * get A i k)) (get A i j)) ->
  exists x, gauss_barcodes_col A rb cb s p j = Ok x.
Proof.
  intros Hp HA Hs0 Hy0 Hy. unfold gauss_barcodes_col. fold b ar ac.
  destruct (Nat.eqb_spec (length ar) 0) as [H0|H0]; eauto.
  destruct (Nat.eqb_spec s 0); [lia|]. fold S.
  assert (HwS : wf_mat S) by (apply wf_sub; apply S_cols_ok).
  assert (HrS : rng_mat p S) by (apply rng_sub; auto; [lia|apply S_cols_ok]).
  destruct (gauss_col_total p S Hp HwS HrS) as (R & T & E). rewrite E. cbn [bind].
  assert (G : gauss_ok p S R T) by (apply gauss_col_correct; auto).
  assert (Hz : vany (col R (length ac)) = false).
  { apply vany_false.
    apply (gauss_dep_zero p S R T G Hp HrS (length ac)); [rewrite S_ncols; lia|].
    apply (solution_span p S (length ac) (fun c => y (nth c ac 0%nat))).
    intros a. change (vget (col S (length ac)) a) with (get S a (length ac)).
    destruct (lt_dec a (length ar)) as [Ha|Ha].
    - rewrite S_get_last by auto.
      assert (Hal : alive rb (nth a ar 0%nat) b) by (apply in_active_idx; apply nth_In; auto).
      rewrite <- (Hy _ Hal).
      rewrite (Zsum_ext (length ac) _ (fun c => y (nth c ac 0%nat) * get A (nth a ar 0%nat) (nth c ac 0%nat)))
        by (intros c Hc; rewrite S_get; auto).
      rewrite <- (Zsum_scatter s (fun c => y (nth c ac 0%nat)) (get A (nth a ar 0%nat)) ac).
      + apply cong_eq. apply Zsum_ext. intros k Hk. f_equal.
        destruct (in_dec Nat.eq_dec k ac) as [Hin|Hin].
        * apply In_nth with (d := 0%nat) in Hin. destruct Hin as (c & Hc & <-).
          rewrite scatter_nth; auto. apply NoDup_active.
        * rewrite scatter_out by auto. symmetry. apply Hy0. intros Hal'. apply Hin. apply ac_lt. auto.
      + apply NoDup_active.
      + intros k Hk. apply ac_lt in Hk. lia.
    - rewrite (get_wf_out S) by (auto; rewrite S_nrows; lia).
      rewrite Zsum_0; [reflexivity|]. intros c Hc. rewrite get_wf_out by (auto; rewrite S_nrows; lia). ring. }
  rewrite Hz. eauto.
Qed.

End Bar.

Lemma gauss_barcodes_sound A rb cb s p X : 2 <= p -> (s <= ncols A)%nat -> (ncols A <= length cb)%nat ->
  gauss_barcodes A rb cb s p = Ok X ->
  nrows X = s /\ ncols X = (ncols A - s)%nat /\
  forall j, (s <= j < ncols A)%nat ->
    let b := fst (nth j cb (0, 0)) in
    rng p (col X (j - s)) /\
    (forall k, (k < s)%nat -> ~ alive cb k b -> get X k (j - s) = 0) /\
    (forall i, alive rb i b ->
       cong p (Zsum s (fun k => get X k (j - s) * get A i k)) (get A i j)).
Proof.
  intros Hp Hs Hcb. unfold gauss_barcodes.
  destruct (mapM _ _) as [cs|] eqn:E; [|discriminate]. cbn [bind]. intros H; injection H as <-.
  apply mapM_Ok in E. rewrite seq_length in E. destruct E as [EL E].
  split; [reflexivity|]. split; [exact EL|].
  intros j Hj. specialize (E (j - s)%nat 0%nat [] ltac:(lia)).
  rewrite seq_nth in E by lia. replace (s + (j - s))%nat with j in E by lia.
  apply gauss_barcodes_col_sound in E; try lia.
  destruct E as (_ & H1 & H2 & H3). split; [exact H1|]. split; [exact H2|exact H3].
Qed.

Lemma gauss_barcodes_complete A rb cb s p : prime p -> rng_mat p A ->
  (0 < s <= ncols A)%nat -> (ncols A <= length cb)%nat ->
  (forall j, (s <= j < ncols A)%nat ->
    let b := fst (nth j cb (0, 0)) in
    exists y, (forall k, ~ alive cb k b -> y k = 0) /\
      forall i, alive rb i b -> cong p (Zsum s (fun k => y k * get A i k)) (get A i j)) ->
  exists X, gauss_barcodes A rb cb s p = Ok X.
Proof.
  intros Hp HA Hs Hcb H. unfold gauss_barcodes. pose proof (prime_ge_2 p Hp).
  destruct (mapM_total (gauss_barcodes_col A rb cb s p) (seq s (ncols A - s))) as [cs E].
  - intros j Hj. apply in_seq in Hj. destruct (H j ltac:(lia)) as (y & Hy0 & Hy).
    apply (gauss_barcodes_col_complete A rb cb s p j) with (y := y); auto; lia.
  - rewrite E. cbn [bind]. eauto.
Qed.

Lemma mapM_err {A B} (f : A -> res B) l e : mapM f l = Err e -> exists x, In x l /\ f x = Err e.
Proof.
  induction l as [|x l IH]; simpl; [discriminate|].
  destruct (f x) as [y|e'] eqn:E; cbn [bind].
  - destruct (mapM f l) as [ys|e']; cbn [bind]; [discriminate|].
    intros H. destruct IH as (z & Hz & Ez); [congruence|]. exists z. auto.
  - intros H. injection H as ->. exists x. auto.
Qed.

Lemma gauss_barcodes_err A rb cb s p e : prime p -> rng_mat p A ->
  (0 < s <= ncols A)%nat -> (ncols A <= length cb)%nat ->
  gauss_barcodes A rb cb s p = Err e -> e = RuntimeError.
Proof.
  intros Hp HA Hs Hcb. unfold gauss_barcodes. pose proof (prime_ge_2 p Hp).
  destruct (mapM _ _) as [cs|e'] eqn:E; cbn [bind]; [discriminate|].
  intros X; injection X as ->. apply mapM_err in E. destruct E as (j & Hj & E).
  apply in_seq in Hj. unfold gauss_barcodes_col in E.
  destruct (Nat.eqb_spec (length (active_idx rb (fst (nth j cb (0, 0))))) 0); [discriminate|].
  destruct (Nat.eqb_spec s 0); [lia|].
  set (S := take_cols _ _) in E.
  assert (HC : forall k, In k (active_idx (firstn s cb) (fst (nth j cb (0, 0))) ++ [j]) -> (k < ncols A)%nat).
  { intros k. apply S_cols_ok; lia. }
  destruct (gauss_col_total p S Hp) as (R & T & E').
  - apply wf_sub; auto.
  - apply rng_sub; auto. lia.
  - rewrite E' in E. cbn [bind] in E. destruct (vany _); [congruence|discriminate].
Qed.
