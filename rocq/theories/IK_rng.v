(** * The matrices of images, kernels and quotients have entries in [0, p) *)
From Verif Require Import Base ListX SortX Gauss_model Gauss_col Gauss_solve Basis_model PH_model IK_model.
Local Open Scope Z_scope.

Section Range.
Variable p : Z.
Hypothesis Hp : 2 <= p.

Definition red (v : vec) : Prop := Forall (fun x => 0 <= x < p) v.
Definition redm (A : mat) : Prop := Forall red (cols A).

Lemma red_vget v i : red v -> 0 <= vget v i < p.
Proof. intros H. destruct (Nat.lt_ge_cases i (length v)) as [Hi|Hi]; [|unfold vget; rewrite nth_overflow by lia; lia]. apply (proj1 (Forall_forall _ _) H). apply nth_In; auto. Qed.
Lemma red_nil : red []. Proof. constructor. Qed.
Lemma red_map {A} (f : A -> Z) l : (forall x, In x l -> 0 <= f x < p) -> red (map f l).
Proof. intros H. apply Forall_forall. intros y Hy. apply in_map_iff in Hy. destruct Hy as (x & <- & Hx). auto. Qed.
Lemma red_vmod v : red (vmod v p).
Proof. apply red_map. intros; apply Z.mod_pos_bound; lia. Qed.
Lemma red_add u v : red (add_arrays_mod_c u v p). Proof. apply red_vmod. Qed.
Lemma red_unit n k : red (vunit n k). Proof. apply red_map. intros x _. destruct (Nat.eqb x k); lia. Qed.
Lemma red_zero n : red (vzero n). Proof. apply Forall_forall. intros x Hx. apply repeat_spec in Hx. lia. Qed.
Lemma red_skipn k v : red v -> red (skipn k v).
Proof. intros H. apply Forall_forall. intros x Hx. apply (proj1 (Forall_forall _ _) H). rewrite <- (firstn_skipn k v). apply in_or_app; auto. Qed.
Lemma red_firstn k v : red v -> red (firstn k v).
Proof. intros H. apply Forall_forall. intros x Hx. apply (proj1 (Forall_forall _ _) H). rewrite <- (firstn_skipn k v). apply in_or_app; auto. Qed.

Lemma redm_col A j : redm A -> red (col A j).
Proof. intros H. destruct (Nat.lt_ge_cases j (ncols A)) as [Hj|Hj]; [|unfold col; rewrite nth_overflow by exact Hj; apply red_nil]. apply (proj1 (Forall_forall _ _) H). apply nth_In; auto. Qed.
Lemma redm_rng A : redm A -> rng_mat p A.
Proof. intros H k _ i. apply red_vget, redm_col, H. Qed.
Lemma redm_cols m l : Forall red l -> redm (Mat m l). Proof. auto. Qed.
Lemma redm_app m A B : redm A -> redm B -> redm (Mat m (cols A ++ cols B)). Proof. intros. apply Forall_app; auto. Qed.
Lemma redm_rows A rows : redm A -> redm (take_rows A rows).
Proof.
  intros H. unfold redm, take_rows. cbn [cols]. apply Forall_forall. intros c Hc. apply in_map_iff in Hc. destruct Hc as (x & <- & Hx).
  apply red_map. intros i _. apply red_vget. apply (proj1 (Forall_forall _ _) H _ Hx).
Qed.
Lemma redm_rows_err A rows B : redm A -> take_rows_err A rows = Ok B -> redm B.
Proof. unfold take_rows_err. intros H. destruct (forallb _ _); [|discriminate]. intros E. injection E as <-. apply redm_rows, H. Qed.
Lemma redm_tcols A js : redm A -> redm (take_cols A js).
Proof. intros H. unfold redm, take_cols. cbn [cols]. apply Forall_forall. intros c Hc. apply in_map_iff in Hc. destruct Hc as (x & <- & _). apply redm_col, H. Qed.
Lemma redm_tcols_err A js B : redm A -> take_cols_err A js = Ok B -> redm B.
Proof. unfold take_cols_err. intros H. destruct (forallb _ _); [|discriminate]. intros E. injection E as <-. apply redm_tcols, H. Qed.
Lemma redm_ident n : redm (mident n).
Proof. unfold redm, mident. cbn [cols]. apply Forall_forall. intros c Hc. apply in_map_iff in Hc. destruct Hc as (x & <- & _). apply red_unit. Qed.
Lemma redm_mul A B : redm (multiply_mod_p A B p).
Proof. unfold redm, multiply_mod_p, mmod. cbn [cols]. apply Forall_forall. intros c Hc. apply in_map_iff in Hc. destruct Hc as (x & <- & _). apply red_vmod. Qed.
Lemma redm_tr A : redm A -> redm (mtr A).
Proof.
  intros H. unfold redm, mtr. cbn [cols]. apply Forall_forall. intros c Hc. apply in_map_iff in Hc. destruct Hc as (x & <- & _). apply red_map. intros i Hi.
  apply red_vget. apply (proj1 (Forall_forall _ _) H _ Hi).
Qed.
Lemma mask_in {A} (l : list A) : forall mask x, In x (mask_filter mask l) -> In x l.
Proof. induction l as [|y l IH]; intros [|b mask] x Hx; cbn in *; auto; try contradiction; destruct b; cbn in Hx; try destruct Hx; auto; right; eapply IH; eauto. Qed.

(** ** Bases *)
Lemma mk_red flat bars prev coords so brk bd b : redm coords -> mk_basis flat bars prev coords so brk bd = Ok b -> redm (b_coords b).
Proof.
  intros H E. unfold mk_basis in E. destruct (brk && _); [discriminate|]. destruct (mk_coords bars prev coords) as [cs|] eqn:EC; [|discriminate]. cbn [bind] in E.
  destruct (so && _); [discriminate|]. destruct (mk_brk _ _ _); [|discriminate]. cbn [bind] in E. injection E as <-. cbn [b_coords].
  unfold mk_coords in EC. destruct prev as [pb|]; [|injection EC as <-; exact H]. destruct (Nat.ltb 0 (ncols coords)); [|injection EC as <-; exact H].
  destruct (negb _); [discriminate|]. destruct (negb _); [discriminate|]. injection EC as <-. apply redm_cols, Forall_forall. intros c Hc. apply mask_in in Hc.
  apply (proj1 (Forall_forall _ _) H _ Hc).
Qed.

Lemma sort_red rnd b b' o : redm (b_coords b) -> b_sort rnd b = Ok (b', o) -> redm (b_coords b').
Proof.
  intros H. unfold b_sort. destruct (b_flat b); [discriminate|]. destruct (b_prev b); cbn [bind].
  - destruct (take_cols_err _ _) as [cs|] eqn:E; [|discriminate]. cbn [bind]. intros E'. injection E' as <- <-. cbn [b_coords]. eapply redm_tcols_err; eauto.
  - intros E'. injection E' as <- <-. exact H.
Qed.

(** ** The loops of [image_kernel] *)
Lemma pcr_red fuel : forall act prev r t r' t' piv, red r -> red t -> pivot_check_reduce fuel act prev r t p = Ok (r', t', piv) -> red r' /\ red t'.
Proof.
  induction fuel as [|f IH]; intros act prev r t r' t' piv Hr Ht E; cbn [pivot_check_reduce] in E; [discriminate|]. cbv zeta in E.
  destruct (_ =? -1); [injection E as <- <- _; auto|]. destruct (find _ prev) as [[[rk tk] q]|]; [|injection E as <- <- _; auto].
  destruct (inv_mod_p _ p) as [inv|]; [|discriminate]. cbn [bind] in E. eapply IH; [apply red_add|apply red_add|exact E].
Qed.

Lemma nth_err_In {A} (l : list A) : forall i x, nth_err l i = Ok x -> In x l.
Proof. induction l as [|y l IH]; intros [|i] x E; cbn in E; try discriminate; [injection E as <-; left; auto|right; eauto]. Qed.

Definition icr (c : icol) : Prop := red (ic_col c) /\ red (ic_T c).
Definition kcr (k : kcol) : Prop := red (kc_col k).

Lemma Forall_set {A} (Q : A -> Prop) l : forall i x, Forall Q l -> Q x -> Forall Q (list_set l i x).
Proof. induction l as [|y l IH]; intros [|i] x H Hx; cbn; auto; inversion H; subst; constructor; auto. Qed.

Lemma overwrite_red act cyc t : red cyc -> red t -> red (overwrite act cyc t).
Proof. intros H1 H2. apply red_map. intros i _. destruct (memn i act); apply red_vget; auto. Qed.

Lemma ker_red F aA aB dA rad acc np ims k acc' np' ims' : Forall kcr acc -> Forall icr ims -> kcr k ->
  ker_step F aA aB dA rad p (acc, np, ims) k = Ok (acc', np', ims') -> Forall kcr acc' /\ Forall icr ims'.
Proof.
  intros HA HI Hk E. unfold ker_step in E. destruct (memi _ _ || memz _ _).
  2:{ injection E as <- _ <-. split; auto. apply Forall_app; auto. }
  destruct (pivot_check_reduce _ _ _ _ _ _) as [[[r t] piv]|] eqn:EP; [|discriminate]. cbn [bind] in E.
  destruct (pcr_red _ _ _ _ _ _ _ _ Hk red_nil EP) as [Hr _].
  destruct (negb (piv =? -1)).
  - destruct (nth_err ims (Z.to_nat piv)) as [c|] eqn:EN; [|discriminate]. cbn [bind] in E. cbv zeta in E. destruct (existsb _ aB); [discriminate|].
    injection E as <- _ <-. split; [apply Forall_app; split; auto|]. apply Forall_set; auto.
    assert (HC : icr c). { apply (proj1 (Forall_forall _ _) HI). apply nth_err_In in EN. exact EN. }
    destruct HC as [H1 H2]. destruct (negb _); [|split; cbn; auto]. split; cbn [ic_col ic_T]; [apply redm_col, redm_mul|apply overwrite_red; auto].
  - injection E as <- _ <-. split; auto. apply Forall_app; auto.
Qed.

Lemma im_red F aB dA bA dB rad s cap brk acc np ker c acc' np' ker' : Forall icr acc -> Forall kcr ker -> icr c ->
  im_step F aB dA bA dB rad p s cap brk (acc, np, ker) c = Ok (acc', np', ker') -> Forall icr acc' /\ Forall kcr ker'.
Proof.
  intros HA HK [H1 H2] E. unfold im_step in E. cbv zeta in E. destruct (_ || memn _ bA).
  2:{ injection E as <- _ <-. split; auto. apply Forall_app; split; auto. constructor; auto. split; auto. }
  destruct (pivot_check_reduce _ _ _ _ _ _) as [[[r t] piv]|] eqn:EP; [|discriminate]. cbn [bind] in E.
  destruct (pcr_red _ _ _ _ _ _ _ _ H1 H2 EP) as [Hr Ht].
  destruct (negb (piv =? -1)).
  - injection E as <- _ <-. split; auto. apply Forall_app; split; auto. constructor; auto. split; auto.
  - match type of E with bind ?x _ = _ => destruct x as [k1|] eqn:EK; [|discriminate] end. cbn [bind] in E. injection E as <- _ <-. split.
    + apply Forall_app; split; auto. constructor; auto. destruct (Nat.ltb 0 s); [|split; auto].
      split; cbn [ic_col ic_T]; [apply redm_col, redm_mul|]. apply red_map. intros i _. destruct (Nat.ltb i s); [lia|apply red_vget; auto].
    + destruct (_ && _); [|injection EK as <-; auto]. unfold push in EK. destruct (Nat.ltb _ _); [|discriminate]. injection EK as <-. apply Forall_app; split; auto.
Qed.

Lemma ker_fold_red F aA aB dA rad ks : Forall kcr ks -> forall acc np ims acc' np' ims', Forall kcr acc -> Forall icr ims ->
  foldM (ker_step F aA aB dA rad p) ks (acc, np, ims) = Ok (acc', np', ims') -> Forall kcr acc' /\ Forall icr ims'.
Proof.
  induction ks as [|k ks IH]; intros HK acc np ims acc' np' ims' HA HI E; cbn [foldM] in E; [injection E as <- _ <-; auto|].
  destruct (ker_step _ _ _ _ _ _ _ _) as [[[a n] i]|] eqn:EK; [|discriminate]. cbn [bind] in E. inversion HK; subst.
  destruct (ker_red _ _ _ _ _ _ _ _ _ _ _ _ HA HI ltac:(eassumption) EK). eapply IH; eauto.
Qed.

Lemma im_fold_red F aB dA bA dB rad s cap brk cs : Forall icr cs -> forall acc np ker acc' np' ker', Forall icr acc -> Forall kcr ker ->
  foldM (im_step F aB dA bA dB rad p s cap brk) cs (acc, np, ker) = Ok (acc', np', ker') -> Forall icr acc' /\ Forall kcr ker'.
Proof.
  induction cs as [|k ks IH]; intros HK acc np ims acc' np' ims' HA HI E; cbn [foldM] in E; [injection E as <- _ <-; auto|].
  destruct (im_step _ _ _ _ _ _ _ _ _ _ _ _) as [[[a n] i]|] eqn:EK; [|discriminate]. cbn [bind] in E. inversion HK; subst.
  destruct (im_red _ _ _ _ _ _ _ _ _ _ _ _ _ _ _ _ HA HI ltac:(eassumption) EK). eapply IH; eauto.
Qed.

Lemma update_red b A rad M : redm A -> update_broken b A rad p = Ok M -> redm M.
Proof.
  intros H. unfold update_broken. destruct (death b rad) as [dy|]; [|discriminate]. cbn [bind]. destruct (Nat.ltb 0 _); [|intros E; injection E as <-; auto].
  destruct (b_brk b); [|discriminate]. destruct (negb _); [discriminate|]. intros E. injection E as <-. apply redm_cols, Forall_forall. intros c Hc.
  apply in_map_iff in Hc. destruct Hc as (x & <- & _). apply red_map. intros; apply Z.mod_pos_bound; lia.
Qed.

Lemma zip_set_red cs : forall vs, Forall icr cs -> Forall red vs -> Forall icr (zipw set_col cs vs).
Proof. induction cs as [|c cs IH]; intros [|v vs] H1 H2; cbn; auto. inversion H1; inversion H2; subst. constructor; auto. destruct H3. split; auto. Qed.

Lemma rad_red A B F s st rad st' : Forall icr (fst st) -> Forall kcr (snd st) -> rad_step A B F p s st rad = Ok st' -> Forall icr (fst st') /\ Forall kcr (snd st').
Proof.
  destruct st as [ims ker]. intros HI HK E. cbn [fst snd] in *. unfold rad_step in E.
  destruct (active A rad) as [aA|]; [|discriminate]. cbn [bind] in E. destruct (active B rad) as [aB|]; [|discriminate]. cbn [bind] in E.
  destruct (death A rad) as [dA|]; [|discriminate]. cbn [bind] in E. destruct (birth A rad) as [bA|]; [|discriminate]. cbn [bind] in E.
  destruct (death B rad) as [dB|]; [|discriminate]. cbn [bind] in E. cbv zeta in E.
  match type of E with bind ?x _ = _ => destruct x as [[ker1 ims1]|] eqn:E1; [|discriminate] end. cbn [bind] in E.
  match type of E with bind ?x _ = _ => destruct x as [[[ims2 n2] ker2]|] eqn:E2; [|discriminate] end. cbn [bind] in E. injection E as <-. cbn [fst snd].
  assert (H1 : Forall icr ims1 /\ Forall kcr ker1).
  { destruct (negb _ && _).
    - match type of E1 with bind ?x _ = _ => destruct x as [[[k n] i]|] eqn:E3; [|discriminate] end. cbn [bind] in E1. injection E1 as <- <-.
      destruct (ker_fold_red _ _ _ _ _ _ HK _ _ _ _ _ _ (Forall_nil _) HI E3). auto.
    - assert (HR : Forall icr (map (rel_kill s dA rad) (enum ims))).
      { apply Forall_forall. intros c Hc. apply in_map_iff in Hc. destruct Hc as ((j & x) & <- & Hx). apply in_combine_r in Hx.
        destruct (proj1 (Forall_forall _ _) HI _ Hx) as [Q1 Q2]. unfold rel_kill. destruct (_ && negb _); split; auto. }
      destruct (match b_brk B with Some _ => true | None => false end); [|injection E1 as <- <-; auto].
      destruct (update_broken _ _ _ _) as [M|] eqn:EU; [|discriminate]. cbn [bind] in E1. injection E1 as <- <-. split; auto. apply zip_set_red; auto.
      apply update_red in EU; [exact EU|]. apply redm_cols, Forall_forall. intros c Hc. apply in_map_iff in Hc. destruct Hc as (x & <- & Hx).
      apply (proj1 (Forall_forall _ _) HR _ Hx). }
  destruct H1 as [Q1 Q2]. eapply im_fold_red; [exact Q1|constructor|exact Q2|exact E2].
Qed.

Lemma rad_fold_red A B F s rs : forall st st', Forall icr (fst st) -> Forall kcr (snd st) -> foldM (rad_step A B F p s) rs st = Ok st' -> Forall icr (fst st') /\ Forall kcr (snd st').
Proof.
  induction rs as [|r rs IH]; intros st st' H1 H2 E; cbn [foldM] in E; [injection E as <-; auto|].
  destruct (rad_step A B F p s st r) as [s1|] eqn:E1; [|discriminate]. cbn [bind] in E. destruct (rad_red _ _ _ _ _ _ _ H1 H2 E1). eapply IH; eauto.
Qed.

Lemma mapM_Forall {A B} (f : A -> res B) (P : A -> Prop) (Q : B -> Prop) l : (forall x y, P x -> f x = Ok y -> Q y) -> forall l', Forall P l -> mapM f l = Ok l' -> Forall Q l'.
Proof.
  intros H. induction l as [|x l IH]; intros l' HF E; cbn [mapM] in E; [injection E as <-; constructor|].
  destruct (f x) as [y|] eqn:E1; [|discriminate]. cbn [bind] in E. destruct (mapM f l) as [ys|] eqn:E2; [|discriminate]. cbn [bind] in E. injection E as <-.
  inversion HF; subst. constructor; eauto.
Qed.

Lemma finish_ims_red a ims ims' : Forall icr ims -> finish_ims a ims = Ok ims' -> Forall icr ims'.
Proof.
  intros H E. eapply mapM_Forall; [|exact H|exact E]. intros c c' [H1 H2] E'. cbv beta in E'. destruct (negb _); [|injection E' as <-; split; auto].
  destruct (rev a); [discriminate|]. injection E' as <-. split; auto.
Qed.
Lemma finish_ker_red a ims ims' : Forall kcr ims -> finish_ker a ims = Ok ims' -> Forall kcr ims'.
Proof.
  intros H E. eapply mapM_Forall; [|exact H|exact E]. intros c c' H1 E'. cbv beta in E'. destruct (negb _); [|injection E' as <-; auto].
  destruct (rev a); [discriminate|]. injection E' as <-. auto.
Qed.

Lemma cols_red m {A} (f : A -> vec) l : Forall (fun x => red (f x)) l -> redm (Mat m (map f l)).
Proof. intros H. apply redm_cols, Forall_forall. intros c Hc. apply in_map_iff in Hc. destruct Hc as (x & <- & Hx). apply (proj1 (Forall_forall _ _) H _ Hx). Qed.

Theorem image_kernel_red rnd A B F s I K Pre : redm F -> image_kernel rnd A B F p s = Ok (I, K, Pre) ->
  redm (b_coords I) /\ (forall K', K = Some K' -> redm (b_coords K')) /\ redm Pre.
Proof.
  intros HF E. unfold image_kernel in E. destruct (_ || _); [discriminate|].
  destruct (order_B rnd B F) as [[[B1 F1] oB]|] eqn:EB; [|discriminate]. cbn [bind] in E.
  destruct (order_A rnd A F1 s) as [[[A1 F2] oA]|] eqn:EA; [|discriminate]. cbn [bind] in E. cbv zeta in E.
  assert (H1 : redm F1).
  { unfold order_B in EB. destruct (b_sorted B); [injection EB as _ <- _; auto|]. destruct (mk_basis _ _ _ _ _ _ _); [|discriminate]. cbn [bind] in EB.
    destruct (b_sort _ _) as [[B2 o]|]; [|discriminate]. cbn [bind] in EB. destruct (take_rows_err F o) as [F'|] eqn:ET; [|discriminate]. cbn [bind] in EB. injection EB as _ <- _.
    eapply redm_rows_err; eauto. }
  assert (H2 : redm F2).
  { unfold order_A in EA. destruct (b_sorted A); [injection EA as _ <- _; auto|]. destruct (mk_basis _ _ _ _ _ _ _); [|discriminate]. cbn [bind] in EA.
    destruct (b_sort _ _) as [[B2 o]|]; [|discriminate]. cbn [bind] in EA. destruct (take_cols_err F1 _) as [F'|] eqn:ET; [|discriminate]. cbn [bind] in EA.
    destruct (plain_basis _); [|discriminate]. cbn [bind] in EA. injection EA as _ <- _. eapply redm_tcols_err; eauto. }
  match type of E with bind ?x _ = _ => destruct x as [[ims1 ker1]|] eqn:E1; [|discriminate] end. cbn [bind] in E.
  apply rad_fold_red in E1; [|cbn [fst]; apply Forall_forall; intros c Hc; apply in_map_iff in Hc; destruct Hc as (j & <- & _); split; cbn [ic_col ic_T]; [apply redm_col, H2|apply red_unit]|constructor].
  destruct E1 as [Q1 Q2]. cbn [fst snd] in Q1, Q2.
  destruct (finish_ims _ ims1) as [ims|] eqn:E2; [|discriminate]. cbn [bind] in E. apply (finish_ims_red _ _ _ Q1) in E2.
  match type of E with bind ?x _ = _ => destruct x as [ker|] eqn:E3; [|discriminate] end. cbn [bind] in E.
  assert (Q3 : Forall kcr ker). { destruct (_ || _); [injection E3 as <-; auto|apply (finish_ker_red _ _ _ Q2 E3)]. }
  match type of E with bind ?x _ = _ => destruct x as [IC|] eqn:E4; [|discriminate] end. cbn [bind] in E.
  apply redm_rows_err in E4; [|apply cols_red; apply Forall_forall; intros c Hc; apply (proj1 (Forall_forall _ _) E2 _ Hc)].
  match type of E with bind ?x _ = _ => destruct x as [IB|] eqn:E5; [|discriminate] end. cbn [bind] in E.
  apply mk_red in E5; [|apply redm_cols, Forall_forall; intros c Hc; apply (proj1 (Forall_forall _ _) E4); rewrite <- (firstn_skipn s (cols IC)); apply in_or_app; auto].
  match type of E with bind ?x _ = _ => destruct x as [T|] eqn:E6; [|discriminate] end. cbn [bind] in E.
  apply redm_rows_err in E6; [|apply cols_red; apply Forall_forall; intros c Hc; apply red_skipn; apply (proj1 (Forall_forall _ _) E2 _ Hc)].
  destruct (b_sort rnd IB) as [[IS o]|] eqn:E7; [|discriminate]. cbn [bind] in E. apply sort_red in E7; [|exact E5].
  match type of E with bind ?x _ = _ => destruct x as [PI|] eqn:E8; [|discriminate] end. cbn [bind] in E.
  apply redm_tcols_err in E8; [|apply redm_cols, Forall_forall; intros c Hc; apply mask_in in Hc; apply (proj1 (Forall_forall _ _) E6); rewrite <- (firstn_skipn s (cols T)); apply in_or_app; auto].
  destruct (_ || _); [injection E as <- <- <-; split; [auto|split; [discriminate|auto]]|].
  match type of E with bind ?x _ = _ => destruct x as [KC|] eqn:E9; [|discriminate] end. cbn [bind] in E.
  apply redm_rows_err in E9; [|apply cols_red; exact Q3].
  match type of E with bind ?x _ = _ => destruct x as [KB|] eqn:E10; [|discriminate] end. cbn [bind] in E. apply mk_red in E10; [|exact E9].
  destruct (b_sort rnd KB) as [[KS o2]|] eqn:E11; [|discriminate]. cbn [bind] in E. apply sort_red in E11; [|exact E10]. injection E as <- <- <-.
  split; [auto|]. split; [intros K' EK; injection EK as <-; auto|auto].
Qed.

Lemma quotient_red rnd same M N Q : redm (b_coords M) -> redm (b_coords N) -> quotient rnd same M N p = Ok Q -> redm (b_coords Q).
Proof.
  intros HM HN. unfold quotient. destruct (Nat.eqb _ _); [intros E; injection E as <-; auto|]. destruct (negb same); [discriminate|].
  destruct (plain_basis _); [|discriminate]. cbn [bind]. destruct (b_prev M); [|discriminate]. destruct (image_kernel _ _ _ _ _ _) as [[[q k] pr]|] eqn:E; [|discriminate].
  cbn [bind]. intros E'. injection E' as <-. apply image_kernel_red in E; [destruct E; auto|]. apply redm_app; auto.
Qed.

Lemma no_red : redm no_coords. Proof. constructor. Qed.
Lemma empty_red B e : empty_over B = Ok e -> redm (b_coords e). Proof. intros E. unfold empty_over in E. eapply mk_red; [|exact E]. apply no_red. Qed.

Lemma step_red rnd D B B1 Id i h pre : redm D -> redm (b_coords B) -> redm (b_coords B1) -> redm (b_coords Id) -> mph_step rnd D B B1 Id p = Ok (i, h, pre) ->
  redm (b_coords i) /\ redm (b_coords h).
Proof.
  intros HD HB HB1 HI. unfold mph_step. destruct (Nat.eqb (b_dim B) 0).
  - destruct (empty_over B1) eqn:E1; [|discriminate]. cbn [bind]. destruct (empty_over B) eqn:E2; [|discriminate]. cbn [bind]. intros E. injection E as <- <- _.
    split; eapply empty_red; eauto.
  - destruct (Nat.eqb (b_dim B1) 0); [intros E; injection E as <- <- _; auto|]. destruct (image_kernel _ _ _ _ _ _) as [[[i' k] pr]|] eqn:E1; [|discriminate]. cbn [bind].
    apply image_kernel_red in E1; [|exact HD]. destruct E1 as (Q1 & Q2 & _). destruct k as [K|]; [|discriminate].
    destruct (quotient _ _ _ _ _) as [h'|] eqn:E2; [|discriminate]. cbn [bind]. intros E. injection E as <- <- _. split; auto. eapply quotient_red; [|exact HI|exact E2]. auto.
Qed.

Lemma loop_red rnd D Bs : Forall redm D -> Forall (fun B => redm (b_coords B)) Bs -> forall d Id Hom Im Pre H I Q, redm (b_coords Id) ->
  Forall (fun B => redm (b_coords B)) Hom -> Forall (fun B => redm (b_coords B)) Im -> mph_loop rnd D Bs p d Id Hom Im Pre = Ok (H, I, Q) ->
  Forall (fun B => redm (b_coords B)) H /\ Forall (fun B => redm (b_coords B)) I.
Proof.
  intros HD HB. induction d as [|d IH]; intros Id Hom Im Pre H I Q H1 H2 H3 E; cbn [mph_loop] in E; [injection E as <- <- <-; auto|].
  destruct (nth_err Bs (Datatypes.S d)) as [B|] eqn:EB; [|discriminate]. cbn [bind] in E. destruct (nth_err Bs d) as [B1|] eqn:EB1; [|discriminate]. cbn [bind] in E.
  destruct (nth_err D (Datatypes.S d)) as [M|] eqn:EM; [|discriminate]. cbn [bind] in E. destruct (mph_step _ _ _ _ _ _) as [[[i h] pr]|] eqn:ES; [|discriminate]. cbn [bind] in E.
  apply step_red in ES; [|apply (proj1 (Forall_forall _ _) HD); eapply nth_err_In; eauto|apply (proj1 (Forall_forall _ _) HB B); eapply nth_err_In; eauto
    |apply (proj1 (Forall_forall _ _) HB B1); eapply nth_err_In; eauto|exact H1].
  destruct ES as [S1 S2]. eapply IH; [exact S1| | |exact E]; constructor; auto.
Qed.

Theorem mph_red rnd D Bs Hom Im Pre : Forall redm D -> Forall (fun B => redm (b_coords B)) Bs -> module_persistence_homology rnd D Bs p = Ok (Hom, Im, Pre) ->
  Forall (fun B => redm (b_coords B)) Hom /\ Forall (fun B => redm (b_coords B)) Im.
Proof.
  intros HD HB E. unfold module_persistence_homology in E. destruct Bs as [|B0 Bs]; [discriminate|]. set (Bs' := B0 :: Bs) in *.
  destruct (nth_err Bs' _) as [B|]; [|discriminate]. cbn [bind] in E. destruct (empty_over B) as [e|] eqn:Ee; [|discriminate]. cbn [bind] in E. apply empty_red in Ee.
  destruct (mph_loop _ _ _ _ _ _ _ _ _) as [[[H I] Q]|] eqn:EL; [|discriminate]. cbn [bind] in E. apply loop_red in EL; auto. destruct EL as [L1 L2].
  match type of E with bind ?x _ = _ => destruct x as [H0|] eqn:E0; [|discriminate] end. cbn [bind] in E. injection E as <- <- <-. split; auto. constructor; auto.
  destruct (Nat.eqb (b_dim B0) 0); [injection E0 as <-; apply (proj1 (Forall_forall _ _) HB); left; auto|].
  destruct (mk_basis _ _ _ _ _ _ _) as [K|] eqn:EK; [|discriminate]. cbn [bind] in E0. apply mk_red in EK; [|apply redm_ident].
  destruct (b_sort rnd K) as [[K' o]|] eqn:ES; [|discriminate]. cbn [bind] in E0. apply sort_red in ES; [|exact EK]. destruct (nth_err I 0) as [I0|] eqn:EI; [|discriminate].
  cbn [bind] in E0. eapply quotient_red; [exact ES| |exact E0]. apply (proj1 (Forall_forall _ _) L2). eapply nth_err_In; eauto.
Qed.
End Range.
