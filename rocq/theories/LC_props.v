(** * Local chains: proofs *)
From Verif Require Import Base ListX Lin SortX PH_model Simp_model Spec_Simp Simp_lists Simp_diff LC_model Spec_LC.
From Coq Require Import Sorted.
Local Open Scope Z_scope.

Lemma good_length ws c : good ws c -> length c = length ws.
Proof. unfold good. induction 1; simpl; auto. Qed.

Lemma good_nth ws c k : good ws c -> (k < length ws)%nat -> good_entry (nth k ws 0%nat) (nth k c (LEntry [] LNil)).
Proof. intros H. revert k. induction H; intros [|k] Hk; simpl in *; try lia; auto. apply IHForall2. lia. Qed.

Lemma good_intro ws c : length c = length ws -> (forall k, (k < length ws)%nat -> good_entry (nth k ws 0%nat) (nth k c (LEntry [] LNil))) -> good ws c.
Proof.
  revert c. induction ws as [|w ws IH]; intros [|e c] Hl H; simpl in Hl; try lia; constructor.
  - apply (H 0%nat). simpl. lia.
  - apply IH; [lia|]. intros k Hk. apply (H (S k)). simpl. lia.
Qed.

Lemma mk_entry_eq ref coord : length ref = length (lrows coord) -> mk_entry ref coord = Ok (LEntry ref coord).
Proof. intros H. unfold mk_entry. rewrite H, Nat.eqb_refl. reflexivity. Qed.

(** ** Positions in increasing lists *)
Lemma find_idx_cons g x l : find_idx (Nat.eqb g) (x :: l) = if Nat.eqb g x then Some 0%nat else option_map S (find_idx (Nat.eqb g) l).
Proof. reflexivity. Qed.

Lemma find_idx_in g l : In g l -> exists i, find_idx (Nat.eqb g) l = Some i /\ (i < length l)%nat /\ nth i l 0%nat = g.
Proof.
  intros H. destruct (find_idx (Nat.eqb g) l) as [i|] eqn:E.
  - destruct (find_idx_Some _ _ _ 0%nat E) as (H1 & H2 & _). exists i. split; auto. split; auto. apply Nat.eqb_eq in H2. auto.
  - exfalso. assert (F := proj1 (find_idx_None _ _) E g H). rewrite Nat.eqb_refl in F. discriminate.
Qed.

Lemma find_idx_notin g l : ~ In g l -> find_idx (Nat.eqb g) l = None.
Proof.
  intros H. apply find_idx_None. intros x Hx. apply Nat.eqb_neq. intros ->. auto.
Qed.

Lemma find_idx_nth l i : NoDup l -> (i < length l)%nat -> find_idx (Nat.eqb (nth i l 0%nat)) l = Some i.
Proof.
  intros Hnd Hi. destruct (find_idx_in (nth i l 0%nat) l) as (j & E & Hj & En); [apply nth_In; auto|].
  rewrite E. f_equal. apply (proj1 (NoDup_nth l 0%nat) Hnd); auto.
Qed.

Definition row_at (ref : list nat) (rows : list vec) (g j : nat) : Z :=
  match find_idx (Nat.eqb g) ref with Some i => nth j (nth i rows []) 0 | None => 0 end.

Lemma at_entry_row e g j : at_entry e g j = row_at (le_ref e) (lrows (le_coord e)) g j.
Proof. reflexivity. Qed.

Lemma row_at_cons x ref r rows g j : row_at (x :: ref) (r :: rows) g j = if Nat.eqb g x then nth j r 0 else row_at ref rows g j.
Proof. unfold row_at. rewrite find_idx_cons. destruct (Nat.eqb g x); auto. destruct (find_idx _ ref); auto. Qed.

Lemma nth_vadd u v j : length u = length v -> nth j (vadd u v) 0 = nth j u 0 + nth j v 0.
Proof.
  unfold vadd, vec. revert v j. induction u as [|x u IH]; intros [|y v] [|j] H; simpl in *; try lia; auto.
Qed.

Lemma vadd_length u v : length u = length v -> length (vadd u v) = length u.
Proof. unfold vadd, vec. revert v. induction u as [|x u IH]; intros [|y v] H; simpl in *; try lia; auto. Qed.

(** The selected rows of [cref] receive the rows of [ref] in order: with increasing references they match. *)
Lemma masked_add_ok w cref : increasing cref -> forall ref rows acc, increasing ref -> incl ref cref ->
  length rows = length ref -> length acc = length cref ->
  Forall (fun r => length r = w) rows -> Forall (fun r => length r = w) acc ->
  length (masked_add cref ref rows acc) = length cref /\ Forall (fun r => length r = w) (masked_add cref ref rows acc) /\
  forall g j, row_at cref (masked_add cref ref rows acc) g j = row_at cref acc g j + row_at ref rows g j.
Proof.
  unfold increasing. intros Hc. induction Hc as [|x cref Hs IH Hx]; intros ref rows acc Hr Hi Hl Ha Fr Fa.
  - destruct ref as [|y ref]; [|exfalso; apply (Hi y); simpl; auto]. destruct acc; simpl in Ha; [|lia]. simpl. split; [auto|]. split; [auto|].
    intros g j. unfold row_at. simpl. reflexivity.
  - destruct acc as [|z acc]; simpl in Ha; [lia|]. inversion Fa as [|? ? Fz Fa']; subst. cbn [masked_add].
    destruct (memn x ref) eqn:E.
    + apply memn_In in E. destruct ref as [|y ref]; [destruct E|]. inversion Hr as [|? ? Hr' Hy]; subst.
      assert (y = x).
      { destruct E as [->|E]; auto. rewrite Forall_forall in Hy, Hx. specialize (Hy x E).
        destruct (Hi y (or_introl eq_refl)) as [->|Hyc]; auto. specialize (Hx y Hyc). lia. }
      subst y. destruct rows as [|r rows]; simpl in Hl; [lia|]. inversion Fr as [|? ? Fr0 Fr']; subst.
      (* the mask below uses [x :: ref]; on the tail it agrees with [ref] *)
      assert (Em : masked_add cref (x :: ref) rows acc = masked_add cref ref rows acc).
      { clear - Hx. revert rows acc. induction cref as [|c cref IHc]; intros rows acc; [reflexivity|]. inversion Hx; subst.
        destruct acc as [|a acc]; [reflexivity|]. cbn [masked_add]. replace (memn c (x :: ref)) with (memn c ref).
        - destruct (memn c ref); [destruct rows|]; f_equal; auto.
        - simpl. replace (Nat.eqb c x) with false; auto. symmetry. apply Nat.eqb_neq. lia. }
      rewrite Em. destruct (IH ref rows acc) as (H1 & H2 & H3); auto; try lia.
      { intros g Hg. destruct (Hi g (or_intror Hg)) as [->|]; auto. rewrite Forall_forall in Hy. specialize (Hy g Hg). lia. }
      split; [simpl; lia|]. split.
      * constructor; auto. rewrite vadd_length; lia.
      * intros g j. rewrite !row_at_cons. destruct (Nat.eqb g x) eqn:Eg; [apply nth_vadd; lia|]. apply H3.
    + destruct (IH ref rows acc) as (H1 & H2 & H3); auto; try lia.
      { intros g Hg. destruct (Hi g Hg) as [->|]; auto. exfalso. apply memn_In in Hg. congruence. }
      split; [simpl; lia|]. split; [constructor; auto|].
      intros g j. rewrite !row_at_cons. destruct (Nat.eqb g x) eqn:Eg; [|apply H3]. apply Nat.eqb_eq in Eg. subst g.
      unfold row_at. rewrite find_idx_notin; [ring|]. intros Hg. apply memn_In in Hg. congruence.
Qed.

Lemma nth_repeat_lt {A} (x d : A) n i : (i < n)%nat -> nth i (repeat x n) d = x.
Proof. revert i. induction n as [|n IH]; intros [|i] Hi; simpl; try lia; auto. apply IH. lia. Qed.

Lemma row_at_zero w n cref g j : length cref = n -> row_at cref (repeat (vzero w) n) g j = 0.
Proof.
  intros <-. unfold row_at. destruct (find_idx _ cref) as [i|] eqn:E; auto. destruct (find_idx_Some _ _ _ 0%nat E) as (Hi & _).
  rewrite nth_repeat_lt by auto. unfold vzero. destruct (Nat.lt_ge_cases j w); [apply nth_repeat|]. apply nth_overflow. rewrite repeat_length. auto.
Qed.

Lemma filter_count ref cref : increasing ref -> increasing cref -> incl ref cref -> filter (fun g => memn g ref) cref = ref.
Proof.
  intros Hr Hc Hi. apply increasing_ext; auto; [apply filter_sorted; auto|]. intros g. rewrite filter_In, memn_In. intuition.
Qed.

Lemma add_local_ok w a b : good_entry w a -> good_entry w b ->
  exists c, add_local a b = Ok c /\ good_entry w c /\ (forall g, In g (le_ref c) <-> In g (le_ref a) \/ In g (le_ref b)) /\
  forall g j, at_entry c g j = at_entry a g j + at_entry b g j.
Proof.
  intros [Ha Hca] [Hb Hcb]. unfold add_local. set (cref := nunique (le_ref a ++ le_ref b)).
  assert (Hc : increasing cref) by apply nunique_sorted.
  assert (Hin : forall g, In g cref <-> In g (le_ref a) \/ In g (le_ref b)) by (intros g; unfold cref; rewrite nunique_In; apply in_app_iff).
  destruct (Nat.ltb_spec 0 (Nat.min (length (le_ref a)) (length (le_ref b)))) as [Hmin|Hmin].
  - destruct a as [ra [|wa rowsa]], b as [rb [|wb rowsb]]; cbn [le_ref le_coord lrows] in *; subst; simpl in Hmin; try lia.
    destruct Hca as (-> & La & Fa), Hcb as (-> & Lb & Fb). cbn [isin_add]. rewrite !Nat.eqb_refl. cbn [andb].
    rewrite (filter_count ra), (filter_count rb), La, Lb, !Nat.eqb_refl; auto; try (intros g Hg; apply Hin; auto). cbn [bind].
    destruct (masked_add_ok w cref Hc ra rowsa (repeat (vzero w) (length cref))) as (H1 & H2 & H3); auto.
    { intros g Hg. apply Hin. auto. } { apply repeat_length. }
    { apply Forall_forall. intros r Hr. apply repeat_spec in Hr. subst. apply repeat_length. }
    destruct (masked_add_ok w cref Hc rb rowsb _ Hb ltac:(intros g Hg; apply Hin; auto) Lb H1 Fb H2) as (H4 & H5 & H6).
    rewrite mk_entry_eq by (cbn [lrows]; auto). eexists. split; [reflexivity|]. split; [|split; [exact Hin|]].
    + split; auto. cbn [le_coord]. auto.
    + intros g j. rewrite !at_entry_row. cbn [le_ref le_coord lrows]. rewrite H6, H3. rewrite row_at_zero by auto. ring.
  - destruct (Nat.ltb_spec 0 (length (le_ref a))) as [Hpa|Hpa].
    + assert (Eb : le_ref b = []) by (apply length_zero_iff_nil; lia).
      assert (Ec : cref = le_ref a). { unfold cref. rewrite Eb, app_nil_r. apply nunique_id. auto. }
      cbn [bind]. rewrite mk_entry_eq.
      2:{ rewrite Ec. destruct (le_coord a) as [|wa rowsa]; cbn [lrows]; [rewrite Hca; auto|]. destruct Hca as (_ & L & _). auto. }
      eexists. split; [reflexivity|]. split; [|split; [exact Hin|]].
      * split; auto. cbn [le_coord le_ref]. rewrite Ec. auto.
      * intros g j. rewrite !at_entry_row. cbn [le_ref le_coord]. rewrite Ec, Eb. unfold row_at at 3. simpl. ring.
    + assert (Ea : le_ref a = []) by (apply length_zero_iff_nil; lia).
      assert (Ec : cref = le_ref b). { unfold cref. rewrite Ea. apply nunique_id. auto. }
      destruct (Nat.ltb_spec 0 (length (lrows (le_coord b)))) as [Hpb|Hpb]; cbn [bind].
      * rewrite mk_entry_eq.
        2:{ rewrite Ec. destruct (le_coord b) as [|wb rowsb]; cbn [lrows] in *; [simpl in Hpb; lia|]. destruct Hcb as (_ & L & _). auto. }
        eexists. split; [reflexivity|]. split; [|split; [exact Hin|]].
        -- split; auto. cbn [le_coord le_ref]. rewrite Ec. auto.
        -- intros g j. rewrite !at_entry_row. cbn [le_ref le_coord]. rewrite Ec, Ea. unfold row_at at 2. simpl. ring.
      * assert (Eb : le_ref b = []).
        { destruct (le_coord b) as [|wb rowsb]; auto. destruct Hcb as (_ & L & _). apply length_zero_iff_nil. simpl in Hpb. lia. }
        rewrite Eb in Ec. rewrite mk_entry_eq by (rewrite Ec; reflexivity). eexists. split; [reflexivity|]. split; [|split; [exact Hin|]].
        -- split; auto.
        -- intros g j. rewrite !at_entry_row. cbn [le_ref le_coord]. rewrite Ec, Ea, Eb. reflexivity.
Qed.

Lemma mapM_combine_seq {A B} (f : nat -> A -> res B) (P : nat -> A -> B -> Prop) d d' l :
  (forall i, (i < length l)%nat -> exists y, f i (nth i l d) = Ok y /\ P i (nth i l d) y) ->
  exists ys, mapM (fun ia => f (fst ia) (snd ia)) (combine (seq 0 (length l)) l) = Ok ys /\ length ys = length l /\
  forall i, (i < length l)%nat -> P i (nth i l d) (nth i ys d').
Proof.
  assert (G : forall s, (forall i, (i < length l)%nat -> exists y, f (s + i)%nat (nth i l d) = Ok y /\ P (s + i)%nat (nth i l d) y) ->
    exists ys, mapM (fun ia => f (fst ia) (snd ia)) (combine (seq s (length l)) l) = Ok ys /\ length ys = length l /\
    forall i, (i < length l)%nat -> P (s + i)%nat (nth i l d) (nth i ys d')).
  { induction l as [|x l IH]; intros s H; cbn [length seq combine mapM].
    - exists []. split; auto. split; auto. simpl. intros; lia.
    - destruct (H 0%nat) as (y & E & HP); [simpl; lia|]. rewrite Nat.add_0_r in *. cbn [nth] in E, HP.
      destruct (IH (S s)) as (ys & E' & Hl & HP').
      { intros i Hi. specialize (H (S i) ltac:(simpl; lia)). cbn [nth] in H. replace (S s + i)%nat with (s + S i)%nat by lia. auto. }
      exists (y :: ys). cbn [fst snd]. rewrite E. cbn [bind]. rewrite E'. split; [reflexivity|]. split; [simpl; lia|].
      intros [|i] Hi; cbn [nth]; [rewrite Nat.add_0_r; auto|]. replace (s + S i)%nat with (S s + i)%nat by lia. apply HP'. simpl in Hi. lia. }
  intros H. destruct (G 0%nat) as (ys & H1 & H2 & H3); [auto|]. exists ys. auto.
Qed.

Lemma add_chains_ok ws A B : good ws A -> good ws B -> exists C, add_chains A B = Ok C /\ good ws C /\
  (forall k g, In g (le_ref (nth k C (LEntry [] LNil))) <-> In g (le_ref (nth k A (LEntry [] LNil))) \/ In g (le_ref (nth k B (LEntry [] LNil)))) /\
  forall k g j, value C k g j = value A k g j + value B k g j.
Proof.
  intros HA HB. pose proof (good_length _ _ HA) as LA. pose proof (good_length _ _ HB) as LB. unfold add_chains.
  destruct (mapM_combine_seq (fun i a => b <- nth_err B i ;; add_local a b)
    (fun i a c => good_entry (nth i ws 0%nat) c /\ (forall g, In g (le_ref c) <-> In g (le_ref a) \/ In g (le_ref (nth i B (LEntry [] LNil)))) /\
       forall g j, at_entry c g j = at_entry a g j + at_entry (nth i B (LEntry [] LNil)) g j) (LEntry [] LNil) (LEntry [] LNil) A) as (C & E & LC & HC).
  { intros i Hi. rewrite (nth_err_nth _ _ (LEntry [] LNil)) by lia. cbn [bind].
    destruct (add_local_ok (nth i ws 0%nat) (nth i A (LEntry [] LNil)) (nth i B (LEntry [] LNil))) as (c & E & H1 & H2 & H3);
      try (apply good_nth; auto; lia). exists c. auto. }
  exists C. split; auto. split; [apply good_intro; [lia|]; intros k Hk; apply HC; lia|]. split.
  - intros k g. destruct (Nat.lt_ge_cases k (length A)) as [Hk|Hk]; [apply HC; auto|]. rewrite !nth_overflow by lia. simpl. tauto.
  - intros k g j. unfold value. destruct (Nat.lt_ge_cases k (length A)) as [Hk|Hk]; [apply HC; auto|]. rewrite !nth_overflow by lia. reflexivity.
Qed.

(** ** sums *)
Lemma Zsum_select n (ref : list nat) (f : nat -> Z) : NoDup ref -> (forall g, In g ref -> (g < n)%nat) ->
  (forall g, (g < n)%nat -> ~ In g ref -> f g = 0) ->
  Zsum (length ref) (fun i => f (nth i ref 0%nat)) = Zsum n f.
Proof.
  intros Hnd Hlt H0.
  rewrite (Zsum_ext n f (fun g => Zsum (length ref) (fun i => if Nat.eqb (nth i ref 0%nat) g then f g else 0))).
  - rewrite Zsum_swap. apply Zsum_ext. intros i Hi. rewrite (Zsum_single n (nth i ref 0%nat)).
    + rewrite Nat.eqb_refl. reflexivity.
    + apply Hlt. apply nth_In. auto.
    + intros g Hg Hne. replace (Nat.eqb (nth i ref 0%nat) g) with false; auto. symmetry. apply Nat.eqb_neq. auto.
  - intros g Hg. destruct (in_dec Nat.eq_dec g ref) as [Hin|Hin].
    + destruct (In_nth _ _ 0%nat Hin) as (i & Hi & E). rewrite (Zsum_single _ i) by
        (auto; intros l Hl Hne; replace (Nat.eqb (nth l ref 0%nat) g) with false; auto; symmetry; apply Nat.eqb_neq; intros El;
         apply Hne; apply (proj1 (NoDup_nth ref 0%nat) Hnd); congruence).
      rewrite E, Nat.eqb_refl. reflexivity.
    + rewrite Zsum_0, H0; auto. intros i Hi. replace (Nat.eqb (nth i ref 0%nat) g) with false; auto. symmetry. apply Nat.eqb_neq.
      intros <-. apply Hin. apply nth_In. auto.
Qed.

Lemma row_at_nth ref rows i j : NoDup ref -> (i < length ref)%nat -> row_at ref rows (nth i ref 0%nat) j = nth j (nth i rows []) 0.
Proof. intros Hn Hi. unfold row_at. rewrite find_idx_nth; auto. Qed.

Lemma mtr_col M s g : (s < nrows M)%nat -> vget (nth s (cols (mtr M)) []) g = get M s g.
Proof.
  intros Hs. unfold mtr. cbn [cols]. rewrite nth_map_seq by auto. unfold get, col, vget.
  destruct (Nat.lt_ge_cases g (ncols M)) as [Hg|Hg].
  - rewrite (nth_map (fun c : vec => nth s c 0) (cols M) g []) by auto. reflexivity.
  - rewrite nth_overflow by (rewrite map_length; auto). rewrite (nth_overflow (cols M)) by auto. destruct s; reflexivity.
Qed.

Lemma sums_local_ok w M e : good_entry w e -> (forall g, In g (le_ref e) -> (g < ncols M)%nat) ->
  exists c, sums_local M e = Ok c /\ good_entry w c /\ le_ref c = (if Nat.eqb (length (le_ref e)) 0 then [] else seq 0 (nrows M)) /\
  forall s j, (s < nrows M)%nat -> at_entry c s j = Zsum (ncols M) (fun g => get M s g * at_entry e g j).
Proof.
  intros [He Hc] Hlt. unfold sums_local. destruct (Nat.ltb_spec 0 (length (le_ref e))) as [Hp|Hp].
  - replace (Nat.eqb (length (le_ref e)) 0) with false by (symmetry; apply Nat.eqb_neq; lia).
    replace (forallb _ _) with true by (symmetry; apply forallb_forall; intros g Hg; apply Nat.ltb_lt; auto).
    destruct e as [ref [|w' rows]]; cbn [le_ref le_coord] in *; [subst; simpl in Hp; lia|]. destruct Hc as (-> & L & F).
    rewrite L, Nat.eqb_refl.
    assert (Lm : length (cols (mtr M)) = nrows M) by (unfold mtr; cbn [cols]; rewrite map_length, seq_length; auto).
    rewrite mk_entry_eq by (cbn [lrows]; rewrite map_length, seq_length; lia). eexists. split; [reflexivity|]. cbn [le_ref]. split; [|split; auto].
    + split; [apply seq_sorted|]. cbn [le_coord le_ref]. split; auto. split; [rewrite map_length, seq_length; lia|].
      apply Forall_forall. intros r Hr. apply in_map_iff in Hr. destruct Hr as (x & <- & _). unfold sum_rows. rewrite map_length, seq_length. auto.
    + intros s j Hs. rewrite !at_entry_row. cbn [le_ref le_coord lrows].
      assert (Es : nth s (seq 0 (nrows M)) 0%nat = s) by (rewrite seq_nth; auto).
      assert (E1 : row_at (seq 0 (nrows M)) (map (sum_rows w ref rows) (cols (mtr M))) s j = nth j (nth s (map (sum_rows w ref rows) (cols (mtr M))) []) 0).
      { rewrite <- Es at 1. rewrite row_at_nth; auto; [apply seq_NoDup|rewrite seq_length; auto]. }
      rewrite E1, (nth_map (sum_rows w ref rows) (cols (mtr M)) s []) by lia. unfold sum_rows.
      assert (Hnd : NoDup ref) by (apply increasing_NoDup; auto).
      destruct (Nat.lt_ge_cases j w) as [Hj|Hj].
      * rewrite nth_map_seq by auto. rewrite <- (Zsum_select (ncols M) ref); auto.
        -- apply Zsum_ext. intros i Hi. cbv beta. rewrite mtr_col by auto. rewrite at_entry_row. cbn [le_ref le_coord lrows]. rewrite row_at_nth by auto. unfold vget. ring.
        -- intros g Hg Hn. rewrite at_entry_row. cbn [le_ref le_coord lrows]. unfold row_at. rewrite find_idx_notin by auto. ring.
      * rewrite nth_overflow by (rewrite map_length, seq_length; auto). symmetry. apply Zsum_0. intros g Hg. rewrite at_entry_row. cbn [le_ref le_coord lrows]. unfold row_at.
        destruct (find_idx (Nat.eqb g) ref) as [i|] eqn:E; [|ring]. destruct (find_idx_Some _ _ _ 0%nat E) as (Hi & _).
        rewrite (nth_overflow (nth i rows [])); [ring|]. rewrite Forall_forall in F. rewrite F; auto. apply nth_In. lia.
  - assert (E : le_ref e = []) by (apply length_zero_iff_nil; lia). rewrite E. cbn [length Nat.eqb].
    rewrite mk_entry_eq by reflexivity. eexists. split; [reflexivity|]. split; [split; [constructor|reflexivity]|]. split; auto.
    intros s j Hs. symmetry. apply Zsum_0. intros g Hg. rewrite at_entry_row, E. unfold row_at. simpl. ring.
Qed.

Lemma mapM_index {A B} (f : A -> res B) (P : nat -> B -> Prop) d d' l :
  (forall i, (i < length l)%nat -> exists y, f (nth i l d) = Ok y /\ P i y) ->
  exists ys, mapM f l = Ok ys /\ length ys = length l /\ forall i, (i < length l)%nat -> P i (nth i ys d').
Proof.
  revert P. induction l as [|x l IH]; intros P H; cbn [mapM].
  - exists []. split; auto. split; auto. simpl. intros; lia.
  - destruct (H 0%nat) as (y & E & HP); [simpl; lia|]. cbn [nth] in E. destruct (IH (fun i => P (S i))) as (ys & E' & Hl & HP').
    { intros i Hi. apply (H (S i)). simpl. lia. }
    exists (y :: ys). rewrite E. cbn [bind]. rewrite E'. split; [reflexivity|]. split; [simpl; lia|].
    intros [|i] Hi; cbn [nth]; auto. apply HP'. simpl in Hi. lia.
Qed.

Lemma sums_ok ws M c : good ws c -> (forall k g, In g (le_ref (nth k c (LEntry [] LNil))) -> (g < ncols M)%nat) ->
  exists c', sums c M = Ok c' /\ good ws c' /\
  (forall k, le_ref (nth k c' (LEntry [] LNil)) = if Nat.eqb (length (le_ref (nth k c (LEntry [] LNil)))) 0 then [] else seq 0 (nrows M)) /\
  forall k s j, (s < nrows M)%nat -> value c' k s j = Zsum (ncols M) (fun g => get M s g * value c k g j).
Proof.
  intros Hg Hlt. pose proof (good_length _ _ Hg) as L. unfold sums.
  destruct (mapM_index (sums_local M) (fun k e' => good_entry (nth k ws 0%nat) e' /\
      le_ref e' = (if Nat.eqb (length (le_ref (nth k c (LEntry [] LNil)))) 0 then [] else seq 0 (nrows M)) /\
      forall s j, (s < nrows M)%nat -> at_entry e' s j = Zsum (ncols M) (fun g => get M s g * at_entry (nth k c (LEntry [] LNil)) g j))
      (LEntry [] LNil) (LEntry [] LNil) c) as (c' & E & Lc & H).
  { intros k Hk. destruct (sums_local_ok (nth k ws 0%nat) M (nth k c (LEntry [] LNil))) as (e' & E & H1 & H2 & H3);
      [apply good_nth; auto; lia|intros g Hgg; apply (Hlt k); auto|]. exists e'. auto. }
  exists c'. split; auto. split; [apply good_intro; [lia|]; intros k Hk; apply H; lia|]. split.
  - intros k. destruct (Nat.lt_ge_cases k (length c)) as [Hk|Hk]; [apply H; auto|]. rewrite !nth_overflow by lia. reflexivity.
  - intros k s j Hs. unfold value. destruct (Nat.lt_ge_cases k (length c)) as [Hk|Hk]; [apply H; auto|].
    rewrite !nth_overflow by lia. symmetry. apply Zsum_0. intros g _. unfold at_entry. simpl. ring.
Qed.

(** ** minus, add_entry, copy_seq *)
Lemma minus_ok ws p c : good ws c -> good ws (minus_chains p c) /\
  (forall k, le_ref (nth k (minus_chains p c) (LEntry [] LNil)) = le_ref (nth k c (LEntry [] LNil))) /\
  forall k g j, value (minus_chains p c) k g j = (- value c k g j) mod p.
Proof.
  intros Hg. unfold minus_chains. set (f := fun e : lentry => _).
  assert (Hv : forall e g j, at_entry (f e) g j = (- at_entry e g j) mod p).
  { intros e g j. rewrite !at_entry_row. unfold f. destruct e as [ref [|w rows]]; cbn [le_ref le_coord lrows].
    - unfold row_at. destruct (find_idx _ ref) as [i|]; [destruct i, j|]; reflexivity.
    - assert (E : row_at ref (map (map (fun x => (- x) mod p)) rows) g j = (- row_at ref rows g j) mod p).
      { unfold row_at. destruct (find_idx _ ref) as [i|]; [|reflexivity].
        destruct (Nat.lt_ge_cases i (length rows)) as [Hi|Hi].
        - rewrite (nth_map (map (fun x => (- x) mod p)) rows i []) by auto. unfold vec in *. destruct (Nat.lt_ge_cases j (length (nth i rows []))) as [Hj|Hj].
          + rewrite (nth_map _ _ _ 0) by auto. reflexivity.
          + rewrite !nth_overflow by (rewrite ?map_length; auto). reflexivity.
        - rewrite (nth_overflow (map _ rows)) by (rewrite map_length; auto). rewrite (nth_overflow rows) by auto. destruct j; reflexivity. }
      destruct (Nat.ltb_spec 0 (length rows)); cbn [lrows]; auto. destruct rows; [exact E|simpl in *; lia]. }
  assert (Hr : forall e, le_ref (f e) = le_ref e) by reflexivity.
  assert (Hf : f (LEntry [] LNil) = LEntry [] LNil) by reflexivity.
  split; [|split].
  - apply good_intro; [rewrite map_length; apply good_length; auto|]. intros k Hk. pose proof (good_nth _ _ _ Hg Hk) as [H1 H2].
    rewrite <- Hf, map_nth. split; auto. rewrite Hr. unfold f. cbn [le_coord]. destruct (le_coord (nth k c (LEntry [] LNil))) as [|w rows]; auto.
    destruct H2 as (-> & L & F). destruct (Nat.ltb_spec 0 (length rows)); auto. split; auto. rewrite map_length. split; auto.
    apply Forall_forall. intros r Hrr. apply in_map_iff in Hrr. destruct Hrr as (x & <- & Hx). rewrite map_length. rewrite Forall_forall in F. auto.
  - intros k. rewrite <- Hf, map_nth. rewrite Hf. apply Hr.
  - intros k g j. unfold value. rewrite <- Hf at 1. rewrite map_nth. apply Hv.
Qed.

Lemma copy_ok ws c : good ws c -> mk_chains (map le_ref c) (map le_coord c) = Ok c.
Proof.
  intros Hg. unfold mk_chains. rewrite !map_length, Nat.eqb_refl. induction Hg as [|w e ws c He Hg IH]; cbn [map combine mapM]; [reflexivity|].
  cbn [fst snd]. rewrite mk_entry_eq.
  - cbn [bind]. rewrite IH. destruct e; reflexivity.
  - destruct He as [_ He]. destruct (le_coord e) as [|w' rows]; cbn [lrows]; [rewrite He; reflexivity|]. destruct He as (_ & L & _). auto.
Qed.

Definition value_eq (A B : chains) : Prop := forall k g j, value A k g j = value B k g j.

Lemma sums_additive ws M A B C A' B' C' : good ws A -> good ws B ->
  (forall k g, In g (le_ref (nth k A (LEntry [] LNil))) -> (g < ncols M)%nat) ->
  (forall k g, In g (le_ref (nth k B (LEntry [] LNil))) -> (g < ncols M)%nat) ->
  add_chains A B = Ok C -> sums A M = Ok A' -> sums B M = Ok B' -> sums C M = Ok C' ->
  forall k s j, (s < nrows M)%nat -> value C' k s j = value A' k s j + value B' k s j.
Proof.
  intros HA HB LA LB EC EA EB ECs k s j Hs.
  destruct (add_chains_ok _ _ _ HA HB) as (C0 & E0 & HC & Hr & Hv). rewrite E0 in EC. injection EC as <-.
  destruct (sums_ok _ M _ HA LA) as (A0 & E1 & _ & _ & V1). rewrite E1 in EA. injection EA as <-.
  destruct (sums_ok _ M _ HB LB) as (B0 & E2 & _ & _ & V2). rewrite E2 in EB. injection EB as <-.
  destruct (sums_ok _ M _ HC) as (C1 & E3 & _ & _ & V3).
  { intros k' g Hg. apply Hr in Hg. destruct Hg; eauto. }
  rewrite E3 in ECs. injection ECs as <-. rewrite V1, V2, V3, <- Zsum_add by auto. apply Zsum_ext. intros g _. rewrite Hv. ring.
Qed.

Lemma sums_linear ws M1 M2 M a b c c1 c2 c3 : good ws c ->
  nrows M1 = nrows M -> nrows M2 = nrows M -> ncols M1 = ncols M -> ncols M2 = ncols M ->
  (forall s g, get M s g = a * get M1 s g + b * get M2 s g) ->
  (forall k g, In g (le_ref (nth k c (LEntry [] LNil))) -> (g < ncols M)%nat) ->
  sums c M1 = Ok c1 -> sums c M2 = Ok c2 -> sums c M = Ok c3 ->
  forall k s j, (s < nrows M)%nat -> value c3 k s j = a * value c1 k s j + b * value c2 k s j.
Proof.
  intros Hg R1 R2 N1 N2 HM Hl E1 E2 E3 k s j Hs.
  destruct (sums_ok _ M1 _ Hg) as (x1 & F1 & _ & _ & V1); [rewrite N1; auto|]. rewrite F1 in E1. injection E1 as <-.
  destruct (sums_ok _ M2 _ Hg) as (x2 & F2 & _ & _ & V2); [rewrite N2; auto|]. rewrite F2 in E2. injection E2 as <-.
  destruct (sums_ok _ M _ Hg) as (x3 & F3 & _ & _ & V3); [auto|]. rewrite F3 in E3. injection E3 as <-.
  rewrite V1, V2, V3 by lia. rewrite N1, N2, <- !Zsum_scale, <- Zsum_add. apply Zsum_ext. intros g _. rewrite HM. ring.
Qed.

Lemma add_entry_ok c index ref coord : (index < length c)%nat ->
  (length ref <> length (lrows coord) -> add_entry c index ref coord = Err ValueError) /\
  (length ref = length (lrows coord) -> exists c', add_entry c index ref coord = Ok c' /\ length c' = length c /\
     (forall k, k <> index -> nth k c' (LEntry [] LNil) = nth k c (LEntry [] LNil)) /\
     (coord <> LNil -> nth index c' (LEntry [] LNil) = LEntry ref coord) /\ (coord = LNil -> c' = c)).
Proof.
  intros Hi. unfold add_entry. destruct coord as [|w rows]; cbn [lrows].
  - change (length (@nil vec)) with 0%nat. split; intros H.
    + apply Nat.eqb_neq in H. rewrite H. reflexivity.
    + rewrite H. exists c. do 3 (split; auto). split; [congruence|auto].
  - split; intros H.
    + apply Nat.eqb_neq in H. rewrite H. reflexivity.
    + apply Nat.eqb_eq in H. rewrite H. apply Nat.ltb_lt in Hi. rewrite Hi. apply Nat.ltb_lt in Hi. eexists. split; [reflexivity|].
      split; [apply list_set_length|]. split; [|split; [|discriminate]].
      * intros k Hk. rewrite nth_list_set. destruct (Nat.eqb_spec k index); auto; congruence.
      * intros _. rewrite nth_list_set. rewrite Nat.eqb_refl. apply Nat.ltb_lt in Hi. rewrite Hi. reflexivity.
Qed.

Lemma copy_seq_ok wss cs : Forall2 good wss cs -> copy_seq cs = Ok cs.
Proof.
  unfold copy_seq. induction 1 as [|ws c wss cs H _ IH]; cbn [mapM]; [reflexivity|]. rewrite (copy_ok ws) by auto. cbn [bind]. rewrite IH. reflexivity.
Qed.
