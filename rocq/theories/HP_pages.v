(** * The pages from the second on when only two columns have classes *)
From Coq Require Import QArith.
From Verif Require Import Base ListX SortX Lin Gauss_model Gauss_arith Gauss_col Gauss_solve Gauss_bar Basis_model Basis_props PH_model Simp_model Simp_lists LC_model SS_model
  IK_model IK_post IK_mph Spec_IK Cover_model HP_model HP_table HP_row HP_gens HP_second HP_zero.
From Coq Require Import Permutation.
Local Open Scope Z_scope.

(** The basis found on a page from that of the page before when no differential arrives or leaves. *)
Definition vsort (rnd : Z -> Z) (H : basis) : basis :=
  let o := sort_order rnd (b_bars H) in
  Basis (take (0, 0) (b_bars H) o) false (b_dim H) (Some H) (take_cols (mident (b_dim H)) o) true None None.

Definition proper (H : basis) : Prop := b_dim H = length (b_bars H) /\ forall x, In x (b_bars H) -> fst x < snd x.

Lemma mask_all {A B} (f : A -> bool) l (l' : list B) : (forall x, In x l -> f x = true) -> length l = length l' -> mask_filter (map f l) l' = l'.
Proof.
  revert l'. induction l as [|x l IH]; intros [|y l'] Hf HL; cbn in *; try lia; auto. rewrite (Hf x) by auto. f_equal. apply IH; auto.
Qed.

Lemma mident_ncols n : ncols (mident n) = n.
Proof. unfold ncols, mident. cbn [cols]. rewrite map_length, seq_length. reflexivity. Qed.

Lemma identity_sorted rnd B K : proper B -> mk_basis false (b_bars B) (Some B) (mident (b_dim B)) false false None = Ok K ->
  exists o, b_sort rnd K = Ok (vsort rnd B, o).
Proof.
  intros [Hd Hb] E. unfold mk_basis in E. cbn [andb] in E. destruct (mk_coords _ _ _) as [co|] eqn:Ec; [|discriminate]. cbn [bind mk_brk] in E. injection E as <-.
  unfold mk_coords in Ec. rewrite mident_ncols in Ec.
  assert (Hw : forall x, In x (b_bars B) -> (fun b : bar => fst b <? snd b) x = true) by (intros x Hx; apply Z.ltb_lt; auto).
  assert (Eco : co = mident (b_dim B)).
  { destruct (Nat.ltb_spec 0 (b_dim B)) as [L|L]; [|injection Ec as <-; reflexivity]. cbn [nrows mident] in Ec. rewrite Nat.eqb_refl in Ec. cbn [negb] in Ec.
    destruct (negb _); [discriminate|]. injection Ec as <-. unfold well_defined. rewrite mask_all; [reflexivity|exact Hw|]. unfold mident. cbn [cols]. rewrite map_length, seq_length. auto. }
  assert (Eb : (if Nat.eqb (length (b_bars B)) 0 then b_bars B else mask_filter (well_defined (b_bars B)) (b_bars B)) = b_bars B).
  { destruct (Nat.eqb _ 0); [reflexivity|]. unfold well_defined. apply mask_all; auto. }
  assert (Edim : (if Nat.eqb (length (b_bars B)) 0 then 0%nat else length (filter (fun b => b) (well_defined (b_bars B)))) = b_dim B).
  { destruct (Nat.eqb_spec (length (b_bars B)) 0) as [Z0|Z0]; [lia|]. unfold well_defined. rewrite filter_map_id. rewrite nontrivial_all by auto. auto. }
  rewrite Eb, Edim, Eco. unfold b_sort. cbn [b_flat b_bars b_prev b_brk b_dim b_wd b_coords].
  cbn [andb]. unfold take_cols_err. rewrite mident_ncols.
  replace (forallb (fun j => Nat.ltb j (b_dim B)) (sort_order rnd (b_bars B))) with true.
  - cbn [bind]. eexists. reflexivity.
  - symmetry. apply forallb_forall. intros j Hj. apply sort_order_lt in Hj. apply Nat.ltb_lt. lia.
Qed.

Lemma mph_loop_im rnd D Bs p d : forall Im_d Hom Im Pre H I Q, mph_loop rnd D Bs p d Im_d Hom Im Pre = Ok (H, I, Q) ->
  b_dim Im_d = 0%nat -> (forall e, (e < d)%nat -> b_dim (nth (Datatypes.S e) Bs empty_basis) = 0%nat) -> b_dim (nth 0 I empty_basis) = 0%nat.
Proof.
  induction d as [|d IH]; intros Im_d Hom Im Pre H I Q E Hi Hz; cbn [mph_loop] in E; [injection E as <- <- <-; exact Hi|].
  destruct (nth_err Bs (Datatypes.S d)) as [B|] eqn:EB; [|discriminate]. cbn [bind] in E.
  destruct (nth_err Bs d) as [B1|] eqn:EB1; [|discriminate]. cbn [bind] in E.
  destruct (nth_err D (Datatypes.S d)) as [M|]; [|discriminate]. cbn [bind] in E.
  destruct (mph_step rnd M B B1 Im_d p) as [[[i h] pre]|] eqn:ES; [|discriminate]. cbn [bind] in E.
  apply (IH _ _ _ _ _ _ _ E); [|intros e He; apply Hz; lia].
  pose proof (nth_err_lt _ _ _ EB) as L1. rewrite (nth_err_nth Bs _ empty_basis L1) in EB. injection EB as <-. unfold mph_step in ES. rewrite Hz in ES by lia. cbn [Nat.eqb] in ES.
  destruct (empty_over B1) as [i'|] eqn:Ei; [|discriminate]. cbn [bind] in ES. destruct (empty_over (nth (Datatypes.S d) Bs empty_basis)); [|discriminate]. cbn [bind] in ES. injection ES as <- _ _.
  unfold empty_over in Ei. apply mk_basis_bars in Ei. apply Ei.
Qed.

Lemma mph_column rnd D B Bs p Hom Im Pre : module_persistence_homology rnd D (B :: Bs) p = Ok (Hom, Im, Pre) -> proper B -> (forall X, In X Bs -> b_dim X = 0%nat) ->
  exists H I pre outs, combine (combine Hom Im) Pre = (H, I, pre) :: outs /\ b_dim I = 0%nat /\ (forall o, In o outs -> b_dim (fst (fst o)) = 0%nat) /\
    (b_dim B = 0%nat -> H = B) /\ ((0 < b_dim B)%nat -> H = vsort rnd B).
Proof.
  intros E HB Hz. pose proof (mph_over_zero _ _ _ _ _ _ _ E) as (LH & LI & LP & _).
  unfold module_persistence_homology in E. set (Bs' := B :: Bs) in *.
  destruct (nth_err Bs' (length Bs' - 1)) as [Bt|]; [|discriminate]. cbn [bind] in E. destruct (empty_over Bt) as [e|] eqn:Ee; [|discriminate]. cbn [bind] in E.
  destruct (mph_loop _ _ _ _ _ _ _ _ _) as [[[H I] Q]|] eqn:EL; [|discriminate]. cbn [bind] in E.
  unfold empty_over in Ee. apply mk_basis_bars in Ee. destruct Ee as [_ Ee]. cbn [filter length] in Ee.
  assert (Hz' : forall e0, (e0 < length Bs' - 1)%nat -> b_dim (nth (Datatypes.S e0) Bs' empty_basis) = 0%nat).
  { intros k Hk. cbn [nth Bs']. apply Hz. apply nth_In. unfold Bs' in Hk. cbn [length] in Hk. lia. }
  pose proof (mph_loop_im _ _ _ _ _ _ _ _ _ _ _ _ EL Ee Hz') as HIm.
  pose proof (fun k Hk => proj2 (mph_loop_zero _ _ _ _ _ _ _ _ _ _ _ _ EL k Hk (Hz' k Hk))) as HHom.
  match type of E with bind ?x _ = _ => destruct x as [H0|] eqn:E0; [|discriminate] end. cbn [bind] in E. injection E as <- <- <-.
  destruct I as [|I0 I]; [cbn in LI; unfold Bs' in LI; cbn in LI; lia|]. cbn [nth] in HIm. cbn [combine]. exists H0, I0, None, (combine (combine H I) Q). split; [reflexivity|]. split; [exact HIm|].
  split.
  - intros [[h i] q] Ho. apply in_combine_l in Ho. apply in_combine_l in Ho. cbn [fst]. apply (In_nth _ _ empty_basis) in Ho. destruct Ho as (k & Hk & <-). apply HHom.
    unfold Bs' in *. cbn [length] in *. lia.
  - destruct (Nat.eqb_spec (b_dim B) 0) as [Z0|Z0]; [injection E0 as <-; split; [auto|lia]|]. split; [lia|]. intros _.
    destruct (mk_basis false (b_bars B) (Some B) _ false false None) as [K|] eqn:EK; [|discriminate]. cbn [bind] in E0.
    destruct (identity_sorted rnd B K HB EK) as (o & Eo). rewrite Eo in E0. cbn [bind] in E0. change (nth_err (I0 :: I) 0) with (Ok I0) in E0. cbn [bind] in E0.
    unfold quotient in E0. rewrite HIm in E0. cbn [Nat.eqb] in E0. injection E0 as <-. reflexivity.
Qed.

Lemma proper_vsort rnd H : proper H -> proper (vsort rnd H).
Proof.
  intros [H1 H2]. unfold vsort. split; cbn [b_dim b_bars].
  - unfold take. rewrite map_length, sort_order_length. exact H1.
  - intros x Hx. unfold take in Hx. apply in_map_iff in Hx. destruct Hx as (i & <- & Hi). apply sort_order_lt in Hi. apply H2. apply nth_In. exact Hi.
Qed.

(** ** What is written by [add_output_higher] *)
Lemma add_output_rest outs : forall P n d cp P', (0 < cp)%nat -> add_output_higher P outs n d cp = Ok P' ->
  forall k' n' d', (k' <> cp \/ (n' < n)%nat -> tget (h_hom P') k' n' d' = tget (h_hom P) k' n' d' /\ tget (h_im P') k' n' d' = tget (h_im P) k' n' d') /\
    (k' <> Datatypes.S cp \/ (n' < n)%nat -> tget (h_dim P') k' n' d' = tget (h_dim P) k' n' d').
Proof.
  induction outs as [|[[h im] pre] outs IH]; intros P n d cp P' Hcp E k' n' d'; cbn [add_output_higher] in E; [injection E as <-; auto|].
  destruct (tset (h_preim P) cp n d pre) as [a|] eqn:E1; [|discriminate]. cbn [bind] in E.
  destruct (tset (h_hom P) cp n d h) as [b|] eqn:E2; [|discriminate]. cbn [bind] in E.
  destruct (tset (h_dim P) (1 + cp) n d (b_dim h)) as [c|] eqn:E3; [|discriminate]. cbn [bind] in E.
  destruct (tset (h_im P) cp n d (Some im)) as [e|] eqn:E4; [|discriminate]. cbn [bind] in E.
  destruct (IH _ _ _ _ _ Hcp E k' n' d') as (I1 & I2). cbn [h_hom h_im h_dim] in *. split; intros Hk.
  - destruct I1 as (-> & ->); [destruct Hk; [left; auto|right; lia]|]. rewrite (tget_tset _ _ _ _ _ _ E2), (tget_tset _ _ _ _ _ _ E4).
    assert (Nat.eqb k' cp && Nat.eqb n' n = false) as ->; [|auto].
    destruct (Nat.eqb_spec k' cp) as [->|]; [|reflexivity]. destruct Hk as [Hk|Hk]; [congruence|]. destruct (Nat.eqb_spec n' n); [lia|reflexivity].
  - rewrite I2 by (destruct Hk; [left; auto|right; lia]). rewrite (tget_tset _ _ _ _ _ _ E3).
    assert (Nat.eqb k' (1 + cp) && Nat.eqb n' n = false) as ->; [|auto].
    destruct (Nat.eqb_spec k' (1 + cp)) as [->|]; [|reflexivity]. destruct Hk as [Hk|Hk]; [cbn in Hk; congruence|]. destruct (Nat.eqb_spec n' n); [lia|reflexivity].
Qed.

(** Columns from the third on without classes. *)
Definition thin (P : pages) (k : nat) : Prop :=
  forall n d, (2 <= n)%nat -> (forall H, tget (h_hom P) k n d = Ok H -> b_dim H = 0%nat) /\ (forall x, tget (h_dim P) (Datatypes.S k) n d = Ok x -> x = 0%nat).

Lemma add_output_thin outs : forall P n d cp P', add_output_higher P outs n d cp = Ok P' -> (forall o, In o outs -> b_dim (fst (fst o)) = 0%nat) -> thin P cp -> thin P' cp.
Proof.
  induction outs as [|[[h im] pre] outs IH]; intros P n d cp P' E Hz HT; cbn [add_output_higher] in E; [injection E as <-; auto|].
  destruct (tset (h_preim P) cp n d pre) as [a|] eqn:E1; [|discriminate]. cbn [bind] in E.
  destruct (tset (h_hom P) cp n d h) as [b|] eqn:E2; [|discriminate]. cbn [bind] in E.
  destruct (tset (h_dim P) (1 + cp) n d (b_dim h)) as [c|] eqn:E3; [|discriminate]. cbn [bind] in E.
  destruct (tset (h_im P) cp n d (Some im)) as [e|] eqn:E4; [|discriminate]. cbn [bind] in E.
  apply (IH _ _ _ _ _ E); [intros o Ho; apply Hz; right; exact Ho|]. intros n' d' Hn. cbn [h_hom h_dim]. specialize (Hz _ (or_introl eq_refl)). cbn [fst] in Hz. destruct (HT n' d' Hn) as [T1 T2]. split.
  - intros H. rewrite (tget_tset _ _ _ _ _ _ E2). destruct (_ && _); [intros X; injection X as <-; exact Hz|apply T1].
  - intros x. rewrite (tget_tset _ _ _ _ _ _ E3). destruct (_ && _); [intros X; injection X as <-; exact Hz|apply T2].
Qed.

Lemma add_output_head h im pre outs P n d cp P' : (2 <= cp)%nat -> add_output_higher P ((h, im, pre) :: outs) n d cp = Ok P' -> 
  (tget (h_hom P') cp n d = Ok h /\ tget (h_im P') cp n d = Ok (Some im) /\ tget (h_dim P') (Datatypes.S cp) n d = Ok (b_dim h)) /\
  (forall n' d', (n' < n + cp)%nat -> (n', d') <> (n, d) -> tget (h_hom P') cp n' d' = tget (h_hom P) cp n' d' /\ tget (h_im P') cp n' d' = tget (h_im P) cp n' d' /\
     tget (h_dim P') (Datatypes.S cp) n' d' = tget (h_dim P) (Datatypes.S cp) n' d') /\
  ((n < 2)%nat \/ b_dim h = 0%nat -> (forall o, In o outs -> b_dim (fst (fst o)) = 0%nat) -> thin P cp -> thin P' cp).
Proof.
  intros Hcp E. cbn [add_output_higher] in E.
  destruct (tset (h_preim P) cp n d pre) as [a|] eqn:E1; [|discriminate]. cbn [bind] in E.
  destruct (tset (h_hom P) cp n d h) as [b|] eqn:E2; [|discriminate]. cbn [bind] in E.
  destruct (tset (h_dim P) (1 + cp) n d (b_dim h)) as [c|] eqn:E3; [|discriminate]. cbn [bind] in E.
  destruct (tset (h_im P) cp n d (Some im)) as [e|] eqn:E4; [|discriminate]. cbn [bind] in E.
  pose proof (add_output_rest outs _ _ _ _ _ (Nat.lt_le_trans _ _ _ Nat.lt_0_2 Hcp) E) as R. cbn [h_hom h_im h_dim] in R. split; [|split].
  - destruct (R cp n d) as [R1 _]. destruct (R (Datatypes.S cp) n d) as [_ R2]. destruct R1 as (-> & ->); [right; lia|]. rewrite R2 by (right; lia).
    rewrite (tget_tset _ _ _ _ _ _ E2), (tget_tset _ _ _ _ _ _ E4), (tget_tset _ _ _ _ _ _ E3), !Nat.eqb_refl. auto.
  - intros n' d' Hn Hne. destruct (R cp n' d') as [R1 _]. destruct (R (Datatypes.S cp) n' d') as [_ R2]. destruct R1 as (-> & ->); [right; lia|]. rewrite R2 by (right; lia).
    rewrite (tget_tset _ _ _ _ _ _ E2), (tget_tset _ _ _ _ _ _ E4), (tget_tset _ _ _ _ _ _ E3).
    assert (X : Nat.eqb n' n && Nat.eqb d' d = false) by (destruct (Nat.eqb_spec n' n) as [->|]; [|reflexivity]; destruct (Nat.eqb_spec d' d) as [->|]; [congruence|reflexivity]).
    rewrite <- !andb_assoc, X, !andb_false_r. auto.
  - intros Hh Ho HT. apply (add_output_thin _ _ _ _ _ _ E Ho). intros n' d' Hn. cbn [h_hom h_dim]. destruct (HT n' d' Hn) as [T1 T2]. split.
    + intros H. rewrite (tget_tset _ _ _ _ _ _ E2). destruct (Nat.eqb_spec n' n) as [->|]; cbn [andb]; [|rewrite andb_false_r; cbn [andb]; apply T1].
      destruct (_ && _); [|apply T1]. intros X. injection X as <-. destruct Hh; [lia|auto].
    + intros x. rewrite (tget_tset _ _ _ _ _ _ E3). destruct (Nat.eqb_spec n' n) as [->|]; cbn [andb]; [|rewrite andb_false_r; cbn [andb]; apply T2].
      destruct (_ && _); [|apply T2]. intros X. injection X as <-. destruct Hh; [lia|auto].
Qed.

(** ** Representatives *)
Lemma higher_reps_other rnd S P n d cp P' : compute_higher_representatives rnd S P n d cp = Ok P' ->
  forall k' n' d', k' <> cp \/ (n', d') <> (n, d) -> tget (h_reps P') k' n' d' = tget (h_reps P) k' n' d'.
Proof.
  assert (G : forall x, set_reps P cp n d x = Ok P' -> forall k' n' d', k' <> cp \/ (n', d') <> (n, d) -> tget (h_reps P') k' n' d' = tget (h_reps P) k' n' d').
  { intros x E k' n' d' Hne. rewrite (set_reps_get _ _ _ _ _ _ E). destruct (Nat.eqb_spec k' cp) as [->|]; [|reflexivity]. destruct (Nat.eqb_spec n' n) as [->|]; [|reflexivity].
    destruct (Nat.eqb_spec d' d) as [->|]; [|reflexivity]. destruct Hne; congruence. }
  unfold compute_higher_representatives. destruct (tget (h_hom P) cp n d) as [h|]; [|discriminate]. cbn [bind].
  destruct (Nat.eqb (b_dim h) 0); [apply G|]. destruct (tget (h_reps P) (cp - 1) n d) as [prev|]; [|discriminate]. cbn [bind].
  destruct (mapM _ prev) as [total|]; [|discriminate]. cbn [bind]. destruct (Nat.ltb n cp); [apply G|].
  destruct (foldM _ _ _) as [t|]; [|discriminate]. cbn [bind]. destruct (last_err t); [|discriminate]. cbn [bind].
  destruct (cech_diff_and_lift _ _ _ _ _) as [[B l]|]; [|discriminate]. cbn [bind]. destruct (many B); [discriminate|]. apply G.
Qed.

Lemma higher_reps_get rnd S P n d cp P' H : (n < cp)%nat -> tget (h_hom P) cp n d = Ok H -> compute_higher_representatives rnd S P n d cp = Ok P' ->
  exists R', tget (h_reps P') cp n d = Ok R' /\ (b_dim H = 0%nat -> R' = []) /\
    ((0 < b_dim H)%nat -> exists R, tget (h_reps P) (cp - 1) n d = Ok R /\ mapM (fun c => sums c (mtr (b_coords H))) R = Ok R').
Proof.
  intros Hn EH E. unfold compute_higher_representatives in E. rewrite EH in E. cbn [bind] in E. destruct (Nat.eqb_spec (b_dim H) 0) as [Z0|Z0].
  - exists []. rewrite (set_reps_get _ _ _ _ _ _ E), !Nat.eqb_refl. cbn [andb]. repeat split; auto. lia.
  - destruct (tget (h_reps P) (cp - 1) n d) as [R|] eqn:ER; [|discriminate]. cbn [bind] in E. destruct (mapM _ R) as [R'|] eqn:EM; [|discriminate]. cbn [bind] in E.
    destruct (Nat.ltb_spec n cp); [|lia]. exists R'. rewrite (set_reps_get _ _ _ _ _ _ E), !Nat.eqb_refl. cbn [andb]. split; [reflexivity|]. split; [lia|]. intros _. exists R. auto.
Qed.

(** ** One step *)
Definition stp (rnd : Z -> Z) (P : pages) (k n d : nat) : Prop :=
  exists H H' I' R', tget (h_hom P) (k - 1) n d = Ok H /\ tget (h_hom P) k n d = Ok H' /\ tget (h_im P) k n d = Ok (Some I') /\ b_dim I' = 0%nat /\
    tget (h_dim P) (Datatypes.S k) n d = Ok (b_dim H') /\ tget (h_reps P) k n d = Ok R' /\
    (b_dim H = 0%nat -> H' = H /\ R' = []) /\
    ((0 < b_dim H)%nat -> H' = vsort rnd H /\ exists R, tget (h_reps P) (k - 1) n d = Ok R /\ mapM (fun c => sums c (mtr (b_coords H'))) R = Ok R').

(** Two states agreeing on the pages other than [k]. *)
Definition same_off (k : nat) (P P' : pages) : Prop :=
  forall j n d, j <> k -> tget (h_hom P') j n d = tget (h_hom P) j n d /\ tget (h_im P') j n d = tget (h_im P) j n d /\ tget (h_reps P') j n d = tget (h_reps P) j n d /\
    tget (h_dim P') (Datatypes.S j) n d = tget (h_dim P) (Datatypes.S j) n d.

Definition same_at (k n d : nat) (P P' : pages) : Prop :=
  tget (h_hom P') k n d = tget (h_hom P) k n d /\ tget (h_im P') k n d = tget (h_im P) k n d /\ tget (h_reps P') k n d = tget (h_reps P) k n d /\
  tget (h_dim P') (Datatypes.S k) n d = tget (h_dim P) (Datatypes.S k) n d.

Lemma stp_same rnd P P' k n d : (0 < k)%nat -> same_off k P P' -> same_at k n d P P' -> stp rnd P k n d -> stp rnd P' k n d.
Proof.
  intros Hk SB (A1 & A2 & A3 & A4) (H & H' & I' & R' & E1 & E2 & E3 & E4 & E5 & E6 & E7 & E8). destruct (SB (k - 1)%nat n d ltac:(lia)) as (B1 & B2 & B3 & B4).
  exists H, H', I', R'. rewrite A1, A2, A3, A4, B1, B3. auto 10.
Qed.

Definition first_proper (m : nat) (P : pages) (k : nat) : Prop := forall n d H, (n < 2)%nat -> (d < m)%nat -> tget (h_hom P) k n d = Ok H -> proper H.

Lemma positions_tail f L n d cp nd : In nd (positions f L n d cp) -> (n <= fst nd)%nat.
Proof.
  revert n d. induction f as [|f IH]; intros n d Hin; [destruct Hin|]. cbn [positions] in Hin. destruct (Nat.ltb n L); [|destruct Hin].
  destruct Hin as [<-|Hin]; [cbn; lia|]. destruct (Nat.leb _ _); [|destruct Hin]. apply IH in Hin. lia.
Qed.

Lemma higher_row rnd S m cp P n d P' : (2 <= cp)%nat -> (n < cp)%nat -> (d < m)%nat -> (1 < length (s_nerve S))%nat -> higher_page_row rnd S cp P (n, d) = Ok P' ->
  first_proper m P (cp - 1) -> thin P (cp - 1) -> thin P cp ->
  same_off cp P P' /\ (forall n' d', (n' < 2)%nat -> (n', d') <> (n, d) -> same_at cp n' d' P P') /\ ((n < 2)%nat -> stp rnd P' cp n d) /\ thin P' cp.
Proof.
  intros Hcp Hn Hd HL E HF HT1 HT. unfold higher_page_row in E. cbn [fst snd] in E. set (pos := positions (1 + length (s_nerve S)) (length (s_nerve S)) n d cp) in *.
  destruct (mapM _ pos) as [base|] eqn:EB; [|discriminate]. cbn [bind] in E. destruct (mapM _ (tl pos)) as [diffs|] eqn:ED; [|discriminate]. cbn [bind] in E.
  destruct (module_persistence_homology _ _ _ _) as [[[Hom Im] Pre]|] eqn:EM; [|discriminate]. cbn [bind] in E.
  destruct (add_output_higher _ _ _ _ _) as [P1|] eqn:EA; [|discriminate]. cbn [bind] in E.
  assert (SR : h_hom P' = h_hom P1 /\ h_im P' = h_im P1 /\ h_dim P' = h_dim P1).
  { refine (foldM_inv _ (fun Q => h_hom Q = h_hom P1 /\ h_im Q = h_im P1 /\ h_dim Q = h_dim P1) _ _ P1 P' (conj eq_refl (conj eq_refl eq_refl)) E).
    intros s x s' _ (A & B & C) Es. apply higher_hom in Es. destruct Es as (-> & -> & _ & ->). auto. }
  destruct SR as (S1 & S2 & S3). pose proof (add_output_reps _ _ _ _ _ _ EA) as S4.
  destruct base as [|B0 base]; [discriminate|]. destruct pos as [|x pos'] eqn:Epos; [discriminate|].
  assert (Hpos : x = (n, d) /\ forall y, In y pos' -> (n + cp <= fst y)%nat).
  { unfold pos in Epos. cbn [Nat.add positions] in Epos. destruct (Nat.ltb _ _); [|discriminate]. injection Epos as <- <-. split; [reflexivity|]. intros y Hy.
    destruct (Nat.leb _ _); [|destruct Hy]. apply positions_tail in Hy. exact Hy. }
  destruct Hpos as [-> Hpos]. cbn [mapM fst snd] in EB. destruct (tget (h_hom P) (cp - 1) n d) as [B0'|] eqn:EB0; [|discriminate]. cbn [bind] in EB.
  destruct (mapM _ pos') as [base'|] eqn:EB'; [|discriminate]. cbn [bind] in EB. injection EB as -> ->.
  assert (Hbase : forall X, In X base -> b_dim X = 0%nat).
  { intros X HX. apply mapM_Ok in EB'. destruct EB' as [Lb Hb]. apply (In_nth _ _ empty_basis) in HX. destruct HX as (i & Hi & <-). rewrite Lb in Hi.
    specialize (Hb i (0, 0)%nat empty_basis Hi). destruct (HT1 (fst (nth i pos' (0, 0)%nat)) (snd (nth i pos' (0, 0)%nat))) as [T _]; [|apply (T _ Hb)].
    specialize (Hpos _ (nth_In pos' (0, 0)%nat Hi)). lia. }
  assert (HR : forall k' n' d', k' <> cp \/ ((n', d') <> (n, d) /\ (n' < n + cp)%nat) -> tget (h_reps P') k' n' d' = tget (h_reps P) k' n' d').
  { intros k' n' d' Hne. rewrite <- S4. refine (foldM_inv _ (fun Q => tget (h_reps Q) k' n' d' = tget (h_reps P1) k' n' d') _ _ P1 P' eq_refl E).
    intros s x s' Hx Hs Es. rewrite (higher_reps_other _ _ _ _ _ _ _ Es); [exact Hs|]. destruct Hne as [Hne|[Hne Hlt]]; [left; exact Hne|]. right.
    destruct x as [xn xd]. cbn [fst snd]. destruct Hx as [Hx|Hx]; [congruence|]. specialize (Hpos _ Hx). cbn [fst] in Hpos. intros Y. injection Y as -> ->. lia. }
  assert (SB : same_off cp P P').
  { intros j n' d' Hj. pose proof (add_output_rest _ _ _ _ _ _ (Nat.lt_le_trans _ _ _ Nat.lt_0_2 Hcp) EA) as R. destruct (R j n' d') as [R1 _]. destruct (R (Datatypes.S j) n' d') as [_ R2].
    rewrite S1, S2, S3. destruct R1 as (-> & ->); [left; lia|]. rewrite R2 by (left; lia). rewrite HR by (left; lia). auto. }
  (* the column is that of the base *)
  assert (Bz : (2 <= n)%nat -> b_dim B0 = 0%nat) by (intros H2; destruct (HT1 n d H2) as [T _]; apply T; exact EB0).
  assert (Key : exists H I pre outs, combine (combine Hom Im) Pre = (H, I, pre) :: outs /\ b_dim I = 0%nat /\ (forall o, In o outs -> b_dim (fst (fst o)) = 0%nat) /\
    (b_dim B0 = 0%nat -> b_dim H = 0%nat) /\ ((n < 2)%nat -> (b_dim B0 = 0%nat -> H = B0) /\ ((0 < b_dim B0)%nat -> H = vsort rnd B0))).
  { assert (X : proper B0 \/ (2 <= n)%nat) by (destruct (Nat.lt_ge_cases n 2) as [L|L]; [left; apply (HF n d); auto|right; exact L]).
    destruct X as [X|X].
    - destruct (mph_column _ _ _ _ _ _ _ _ EM X Hbase) as (H & I & pre & outs & C1 & C2 & C3 & C4 & C5). exists H, I, pre, outs. split; [exact C1|]. split; [exact C2|]. split; [exact C3|]. split; [intros Y; rewrite (C4 Y); exact Y|]. auto.
    - specialize (Bz X). pose proof (mph_over_zero _ _ _ _ _ _ _ EM) as (LH & LI & LP & _).
      unfold module_persistence_homology in EM. set (Bs' := B0 :: base) in *.
      destruct (nth_err Bs' (length Bs' - 1)) as [Bt|]; [|discriminate]. cbn [bind] in EM. destruct (empty_over Bt) as [e|] eqn:Ee; [|discriminate]. cbn [bind] in EM.
      destruct (mph_loop _ _ _ _ _ _ _ _ _) as [[[H I] Q]|] eqn:EL; [|discriminate]. cbn [bind] in EM.
      unfold empty_over in Ee. apply mk_basis_bars in Ee. destruct Ee as [_ Ee]. cbn [filter length] in Ee.
      assert (Hz' : forall e0, (e0 < length Bs' - 1)%nat -> b_dim (nth (Datatypes.S e0) Bs' empty_basis) = 0%nat).
      { intros k Hk. cbn [nth Bs']. apply Hbase. apply nth_In. unfold Bs' in Hk. cbn [length] in Hk. lia. }
      pose proof (mph_loop_im _ _ _ _ _ _ _ _ _ _ _ _ EL Ee Hz') as HIm.
      pose proof (fun k Hk => proj2 (mph_loop_zero _ _ _ _ _ _ _ _ _ _ _ _ EL k Hk (Hz' k Hk))) as HHom.
      rewrite Bz in EM. cbn [Nat.eqb bind] in EM. injection EM as <- <- <-. destruct I as [|I0 I]; [cbn in LI; unfold Bs' in LI; cbn in LI; lia|]. cbn [combine].
      exists B0, I0, None, (combine (combine H I) Q). split; [reflexivity|]. split; [exact HIm|]. split; [|split; [auto|intros; lia]].
      intros [[h i] q] Ho. apply in_combine_l in Ho. apply in_combine_l in Ho. cbn [fst]. apply (In_nth _ _ empty_basis) in Ho. destruct Ho as (k & Hk & <-). apply HHom.
      unfold Bs' in *. cbn [length] in *. lia. }
  destruct Key as (H & I & pre & outs & C1 & C2 & C3 & C4 & C5). rewrite C1 in EA.
  destruct (add_output_head _ _ _ _ _ _ _ _ _ Hcp EA) as ((A1 & A2 & A3) & A4 & A5).
  split; [exact SB|]. split; [|split].
  - intros n' d' Hn' Hne. unfold same_at. rewrite S1, S2, S3. destruct (A4 n' d' ltac:(lia) Hne) as (-> & -> & ->). rewrite HR by (right; split; [exact Hne|lia]). auto.
  - intros Hn2. destruct (C5 Hn2) as [C6 C7].
    assert (ER : exists R', tget (h_reps P') cp n d = Ok R' /\ (b_dim H = 0%nat -> R' = []) /\
      ((0 < b_dim H)%nat -> exists R, tget (h_reps P) (cp - 1) n d = Ok R /\ mapM (fun c => sums c (mtr (b_coords H))) R = Ok R')).
    { cbn [foldM fst snd] in E. destruct (compute_higher_representatives rnd S P1 n d cp) as [Q|] eqn:EC; [|discriminate]. cbn [bind] in E.
      destruct (higher_reps_get _ _ _ _ _ _ _ H Hn A1 EC) as (R' & R1 & R2 & R3). rewrite S4 in R3. exists R'. split; [|auto]. rewrite <- R1.
      refine (foldM_inv _ (fun T => tget (h_reps T) cp n d = tget (h_reps Q) cp n d) _ _ Q P' eq_refl E).
      intros s x s' Hx Hs Es. rewrite (higher_reps_other _ _ _ _ _ _ _ Es); [exact Hs|]. right. specialize (Hpos _ Hx). intros Y. injection Y as Y1 Y2. lia. }
    destruct ER as (R' & R1 & R2 & R3). exists B0, H, I, R'. destruct (SB (cp - 1)%nat n d ltac:(lia)) as (-> & _ & -> & _). rewrite S1, S2, S3.
    split; [exact EB0|]. split; [exact A1|]. split; [exact A2|]. split; [exact C2|]. split; [exact A3|]. split; [exact R1|]. split.
    + intros Z0. split; [auto|]. apply R2. auto.
    + intros Hpos0. split; [auto|]. apply R3. rewrite (C7 Hpos0). exact Hpos0.
  - intros n' d' Hn'. rewrite S1, S3. apply A5; auto. destruct (Nat.lt_ge_cases n 2) as [L|L]; [left; exact L|right; apply C4; apply Bz; exact L].
Qed.

(** ** A page *)
Lemma starts_NoDup m cp : NoDup (flat_map (fun n => map (fun d => (n, d)) (seq 0 m)) (seq 0 cp)).
Proof.
  generalize 0%nat at 2 as s. induction cp as [|cp IH]; intros s; cbn [seq flat_map]; [constructor|].
  assert (ND : NoDup (map (fun d => (s, d)) (seq 0 m))) by (apply FinFun.Injective_map_NoDup; [intros a b X; injection X; auto|apply seq_NoDup]).
  assert (Hdis : forall x, In x (map (fun d => (s, d)) (seq 0 m)) -> ~ In x (flat_map (fun n => map (fun d => (n, d)) (seq 0 m)) (seq (Datatypes.S s) cp))).
  { intros x Hx Hy. apply in_map_iff in Hx. destruct Hx as (a & <- & _). apply in_flat_map in Hy. destruct Hy as (n & Hn & Hy). apply in_seq in Hn. apply in_map_iff in Hy. destruct Hy as (b & X & _). injection X as X _. lia. }
  revert ND Hdis. generalize (map (fun d => (s, d)) (seq 0 m)) as l'. induction l' as [|y l' IHl]; intros ND Hdis; cbn [app]; [apply IH|]. inversion ND as [|? ? N1 N2]; subst. constructor.
  - rewrite in_app_iff. intros [X|X]; [auto|]. apply (Hdis y); [left; auto|exact X].
  - apply IHl; auto. intros x Hx. apply Hdis. right. exact Hx.
Qed.

Lemma starts_in m cp n d : In (n, d) (flat_map (fun n => map (fun d => (n, d)) (seq 0 m)) (seq 0 cp)) <-> (n < cp)%nat /\ (d < m)%nat.
Proof.
  rewrite in_flat_map. split.
  - intros (n' & Hn & Hx). apply in_map_iff in Hx. destruct Hx as (d' & X & Hd). injection X as -> ->. apply in_seq in Hn. apply in_seq in Hd. lia.
  - intros [Hn Hd]. exists n. split; [apply in_seq; lia|]. apply in_map_iff. exists d. split; [reflexivity|]. apply in_seq. lia.
Qed.

Lemma same_off_refl k P : same_off k P P. Proof. intros j n d _. auto. Qed.
Lemma same_off_trans k P Q R : same_off k P Q -> same_off k Q R -> same_off k P R.
Proof. intros A B j n d Hj. destruct (A j n d Hj) as (A1 & A2 & A3 & A4). destruct (B j n d Hj) as (-> & -> & -> & ->). auto. Qed.

Lemma first_proper_off m k j P Q : j <> k -> same_off k P Q -> first_proper m P j -> first_proper m Q j.
Proof. intros Hj SB HF n d H Hn Hd E. apply (HF n d); auto. destruct (SB j n d Hj) as (<- & _). exact E. Qed.
Lemma thin_off k j P Q : j <> k -> same_off k P Q -> thin P j -> thin Q j.
Proof. intros Hj SB HT n d Hn. destruct (SB j n d Hj) as (-> & _ & _ & ->). apply HT. exact Hn. Qed.

Lemma page_steps rnd S m cp : (2 <= cp)%nat -> (1 < length (s_nerve S))%nat -> forall l P P', NoDup l -> (forall x, In x l -> (fst x < cp)%nat /\ (snd x < m)%nat) ->
  foldM (higher_page_row rnd S cp) l P = Ok P' -> first_proper m P (cp - 1) -> thin P (cp - 1) -> thin P cp ->
  same_off cp P P' /\ thin P' cp /\ (forall n d, (n < 2)%nat -> In (n, d) l -> stp rnd P' cp n d) /\ (forall n d, (n < 2)%nat -> ~ In (n, d) l -> same_at cp n d P P').
Proof.
  intros Hcp HL. induction l as [|[n d] l IH]; intros P P' ND Hl E HF HT1 HT; cbn [foldM] in E.
  { injection E as <-. split; [apply same_off_refl|]. split; [exact HT|]. split; [intros n d _ []|]. intros n d _ _. unfold same_at. auto. }
  destruct (higher_page_row rnd S cp P (n, d)) as [Q|] eqn:EQ; [|discriminate]. cbn [bind] in E. inversion ND as [|? ? N1 N2]; subst.
  destruct (higher_row _ _ _ _ _ _ _ _ Hcp (proj1 (Hl _ (or_introl eq_refl))) (proj2 (Hl _ (or_introl eq_refl))) HL EQ HF HT1 HT) as (A1 & A2 & A3 & A4).
  destruct (IH Q P' N2 (fun x Hx => Hl x (or_intror Hx)) E) as (B1 & B2 & B3 & B4); auto.
  { apply (first_proper_off m cp _ P); auto. lia. }
  { apply (thin_off cp _ P); auto. lia. }
  split; [apply (same_off_trans _ _ _ _ A1 B1)|]. split; [exact B2|]. split.
  - intros n' d' Hn [X|X]; [|apply B3; auto]. injection X as <- <-. apply (stp_same rnd Q); [lia|exact B1|apply B4; auto|apply A3; auto].
  - intros n' d' Hn Hno. destruct (A2 n' d' Hn) as (C1 & C2 & C3 & C4); [intros X; apply Hno; left; auto|].
    destruct (B4 n' d' Hn) as (D1 & D2 & D3 & D4); [intros X; apply Hno; right; exact X|]. unfold same_at. rewrite D1, D2, D3, D4. auto.
Qed.

Lemma stp_proper rnd m P k n d H' : stp rnd P k n d -> first_proper m P (k - 1) -> (n < 2)%nat -> (d < m)%nat -> tget (h_hom P) k n d = Ok H' -> proper H'.
Proof.
  intros (H & H1 & I' & R' & E1 & E2 & _ & _ & _ & _ & E7 & E8) HF Hn Hd E. rewrite E2 in E. injection E as <-. pose proof (HF n d H Hn Hd E1) as X.
  destruct (Nat.eq_dec (b_dim H) 0) as [Z0|Z0]; [destruct (E7 Z0) as [-> _]; exact X|]. destruct (E8 ltac:(lia)) as [-> _]. apply proper_vsort. exact X.
Qed.

(** ** All pages *)
Lemma stp_off rnd P P' k j n d : j <> k -> (j - 1 <> k)%nat -> same_off k P P' -> stp rnd P j n d -> stp rnd P' j n d.
Proof.
  intros H1 H2 SO (H & H' & I' & R' & E1 & E2 & E3 & E4 & E5 & E6 & E7 & E8). destruct (SO j n d H1) as (A1 & A2 & A3 & A4). destruct (SO (j - 1)%nat n d H2) as (B1 & B2 & B3 & B4).
  exists H, H', I', R'. rewrite A1, A2, A3, A4, B1, B3. auto 10.
Qed.

Lemma pages_steps rnd S m : (1 < length (s_nerve S))%nat -> forall j cp P P', (2 <= cp)%nat ->
  foldM (fun P cp => foldM (higher_page_row rnd S cp) (flat_map (fun n => map (fun d => (n, d)) (seq 0 m)) (seq 0 cp)) P) (seq cp j) P = Ok P' ->
  first_proper m P (cp - 1) -> (forall k, (cp - 1 <= k)%nat -> thin P k) ->
  (forall i n d, (i < cp)%nat -> same_at i n d P P') /\ (forall k, (cp - 1 <= k)%nat -> thin P' k) /\
  (forall k n d, (cp <= k < cp + j)%nat -> (n < 2)%nat -> (d < m)%nat -> stp rnd P' k n d).
Proof.
  intros HL. induction j as [|j IH]; intros cp P P' Hcp E HF HT; cbn [seq foldM] in E.
  { injection E as <-. split; [intros; unfold same_at; auto|]. split; [exact HT|]. intros; lia. }
  match type of E with bind ?x _ = _ => destruct x as [Q|] eqn:EQ; [|discriminate] end. cbn [bind] in E.
  destruct (page_steps rnd S m cp Hcp HL _ P Q (starts_NoDup m cp)) as (A1 & A2 & A3 & _); auto.
  { intros [n d] Hx. apply starts_in in Hx. exact Hx. }
  { apply HT. lia. }
  assert (A3' : forall n d, (n < 2)%nat -> (d < m)%nat -> stp rnd Q cp n d) by (intros n d Hn Hd; apply A3; [exact Hn|apply starts_in; lia]).
  destruct (IH (Datatypes.S cp) Q P' ltac:(lia) E) as (B1 & B2 & B3).
  { cbn [Nat.sub]. rewrite Nat.sub_0_r. intros n d H Hn Hd EH. apply (stp_proper rnd m Q cp n d); auto. apply (first_proper_off m cp _ P); auto. lia. }
  { intros k Hk. destruct (Nat.eq_dec k cp) as [->|Hne]; [exact A2|]. apply (thin_off cp _ P); auto. apply HT. lia. }
  split; [|split].
  - intros i n d Hi. destruct (B1 i n d ltac:(lia)) as (C1 & C2 & C3 & C4). destruct (A1 i n d ltac:(lia)) as (D1 & D2 & D3 & D4). unfold same_at. rewrite C1, C2, C3, C4. auto.
  - intros k Hk. destruct (Nat.le_gt_cases cp k) as [L|L]; [apply B2; lia|]. replace k with (cp - 1)%nat by lia. intros n d Hn. destruct (B1 (cp - 1)%nat n d ltac:(lia)) as (-> & _ & _ & ->).
    apply (thin_off cp _ P); [lia|exact A1|apply HT; lia|exact Hn].
  - intros k n d Hk Hn Hd. destruct (Nat.eq_dec k cp) as [->|Hne]; [|apply B3; auto; lia].
    destruct (A3' n d Hn Hd) as (H & H' & I' & R' & E1 & E2 & E3 & E4 & E5 & E6 & E7 & E8). destruct (B1 cp n d ltac:(lia)) as (C1 & C2 & C3 & C4). destruct (B1 (cp - 1)%nat n d ltac:(lia)) as (D1 & D2 & D3 & D4).
    exists H, H', I', R'. rewrite C1, C2, C3, C4, D1, D3. auto 10.
Qed.
