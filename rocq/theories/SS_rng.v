(** * The coefficients found by the lifts are in [0, p) *)
From Verif Require Import Base ListX SortX Gauss_model Gauss_col Gauss_solve Basis_model PH_model Simp_model LC_model SS_model IK_model IK_rng.
Local Open Scope Z_scope.

Section Range.
Variable S : ss.
Local Notation p := (s_p S).
Hypothesis Hp : 2 <= p.
Local Notation red := (IK_rng.red p).
Local Notation redm := (IK_rng.redm p).

Lemma local_lift_red n deg w rows radii k g b : first_page_local_lift S n deg w rows radii k = Ok (Some (g, b)) -> redm g /\ redm b.
Proof.
  unfold first_page_local_lift. intros E. destruct (Nat.eqb _ 0); [discriminate|]. destruct (the_local S n k) as [l|]; [|discriminate]. cbn [bind] in E.
  destruct (im0 l deg) as [im|]; [|discriminate]. cbn [bind] in E. destruct (hom0 l deg) as [hom|]; [|discriminate]. cbn [bind] in E.
  cbv beta zeta in E.
  Ltac fin := match goal with E : _ = Ok (Some _) |- _ => destruct (negb _); [discriminate|]; destruct (gauss_col_rad _ _ _ _) as [[R T]|]; [|discriminate]; cbn [bind] in E; injection E as <- <-;
    split; apply cols_red, Forall_forall; intros c Hc; apply in_map_iff in Hc; destruct Hc as (x & <- & _); repeat (apply red_skipn || apply red_firstn); apply red_map; intros; apply Z.mod_pos_bound; lia end.
  destruct (_ && _); [destruct (Nat.eqb _ _); [|discriminate]; fin|]. destruct (Nat.ltb 0 (b_dim hom)); [fin|].
  destruct (Nat.ltb 0 (b_dim im)); [fin|discriminate].
Qed.

Lemma scatter_red nR gs b : redm b -> redm (scatter_rows nR gs b).
Proof.
  intros H. unfold scatter_rows. apply redm_cols, Forall_forall. intros c Hc. apply in_map_iff in Hc. destruct Hc as (x & <- & _). apply red_map. intros i _.
  destruct (find_idx _ _); [|lia]. apply red_vget; auto. apply redm_col; auto.
Qed.

Lemma zeros_red n k : Forall red (repeat (vzero n) k).
Proof. apply Forall_forall. intros x Hx. apply repeat_spec in Hx. subst. apply red_zero; auto. Qed.

Lemma mapM_all {A B} (f : A -> res B) (Q : B -> Prop) l : (forall x y, f x = Ok y -> Q y) -> forall l', mapM f l = Ok l' -> Forall Q l'.
Proof. intros H l' E. apply (mapM_Forall f (fun _ => True) Q l) with (l' := l') in E; auto; [intros; eauto|]. apply Forall_forall; auto. Qed.

Lemma repeat_nil_red n : Forall red (repeat [] n).
Proof. apply Forall_forall. intros x Hx. apply repeat_spec in Hx. subst. constructor. Qed.

Lemma lift_red n deg st R B out : first_page_lift S n deg st R = Ok (B, out) -> redm B.
Proof.
  unfold first_page_lift. intros E. destruct (spx_number S n); [|discriminate]. cbn [bind] in E. destruct (page_dim1 S n deg); [|discriminate]. cbn [bind] in E.
  destruct (Nat.eqb _ 0); [injection E as <- _; apply redm_cols, repeat_nil_red|].
  match type of E with bind ?x _ = _ => destruct x as [o|] eqn:EO; [|discriminate] end. cbn [bind] in E. destruct (cycle_dims S n deg) as [cyc|]; [|discriminate]. cbn [bind] in E.
  assert (HO : Forall (fun x => forall g b, x = Some (g, b) -> redm g /\ redm b) o).
  { eapply mapM_all; [|exact EO]. intros k y Ey g b ->. cbv beta in Ey. destruct (nth_err st k) as [e|]; [|discriminate]. cbn [bind] in Ey.
    destruct (Nat.ltb _ _); [|discriminate]. destruct (take_err _ _); [|discriminate]. cbn [bind] in Ey. destruct (le_coord e); [discriminate|]. eapply local_lift_red; eauto. }
  match type of E with bind (foldM ?f ?l ?s) _ = _ => destruct (foldM f l s) as [[[bs ls] pv]|] eqn:EF; [|discriminate];
    assert (HQ : forall l0 s0 s', Forall red (fst (fst s0)) -> foldM f l0 s0 = Ok s' -> Forall red (fst (fst s'))) end.
  { clear E EF bs ls pv. intros l s s' Hs E. revert s s' Hs E. induction l as [|kn l IH]; intros s s' Hs E; cbn [foldM] in E; [injection E as <-; auto|].
    destruct s as [[bs ls] pv]. match type of E with bind ?x _ = _ => destruct x as [s1|] eqn:E1; [|discriminate] end. cbn [bind] in E. apply (IH s1 s'); auto. clear E. cbn [fst snd] in *.
    destruct (nth_err o (fst kn)) as [x|] eqn:Ex; [|discriminate]. cbn [bind] in E1. destruct (nth_err st (fst kn)) as [e|]; [|discriminate]. cbn [bind] in E1.
    destruct x as [[g b]|]; [|injection E1 as <-; cbn [fst snd]; apply Forall_app; split; auto; apply zeros_red].
    destruct (proj1 (Forall_forall _ _) HO _ (nth_err_In _ _ _ Ex) g b eq_refl) as [Q1 Q2].
    match type of E1 with bind ?x _ = _ => destruct x as [b'|] eqn:Eb; [|discriminate] end. cbn [bind] in E1.
    match type of E1 with bind ?x _ = _ => destruct x as [l'|] eqn:El; [|discriminate] end. cbn [bind] in E1. injection E1 as <-. cbn [fst snd].
    apply Forall_app; split; auto. destruct (Nat.ltb 0 (nrows b)); [|injection Eb as <-; apply zeros_red]. destruct (Nat.eqb _ _); [|discriminate]. injection Eb as <-.
    apply scatter_red; auto. }
  cbn [bind] in E. injection E as <- _. apply HQ in EF; auto. constructor.
Qed.

Lemma cech_red n deg st R B out : cech_diff_and_lift S n deg st R = Ok (B, out) -> redm B.
Proof.
  unfold cech_diff_and_lift. intros E. destruct (page_dim1 S n deg); [|discriminate]. cbn [bind] in E. destruct (spx_number S n); [|discriminate]. cbn [bind] in E.
  destruct (Nat.eqb _ 0); [injection E as <- _; apply redm_cols, repeat_nil_red|].
  match type of E with bind ?x _ = _ => destruct x as [o|] eqn:EO; [|discriminate] end. cbn [bind] in E. destruct (cycle_dims S n deg) as [cyc|]; [|discriminate]. cbn [bind] in E.
  assert (HO : Forall (fun x => forall b r c, x = Some (b, r, c) -> redm b) o).
  { eapply mapM_all; [|exact EO]. intros k y Ey b r c ->. unfold cech_diff_and_lift_local in Ey. destruct (cycle_dims S n deg) as [cy|]; [|discriminate]. cbn [bind] in Ey.
    destruct (prev_dim cy k) as [pv|]; [|discriminate]. cbn [bind] in Ey. destruct (nth_err cy k) as [nx|]; [|discriminate]. cbn [bind] in Ey.
    destruct (Nat.eqb pv nx); [discriminate|]. destruct (cech_diff_local _ _ _ _ _) as [[gs co]|]; [|discriminate]. cbn [bind] in Ey. destruct (Nat.eqb _ _); [discriminate|].
    destruct (take_err R gs) as [rd|]; [|discriminate]. cbn [bind] in Ey. destruct co as [|w rows]; [discriminate|].
    destruct (first_page_local_lift _ _ _ _ _ _ _) as [gb|] eqn:EL; [|discriminate]. cbn [bind] in Ey. destruct gb as [[g b0]|]; [|discriminate]. apply local_lift_red in EL. destruct EL as [_ EL].
    destruct (negb _); [discriminate|]. destruct (the_local S n k) as [l|]; [|discriminate]. cbn [bind] in Ey. destruct (preim0 _ _); [|discriminate]. cbn [bind] in Ey.
    destruct (matmul _ _); [|discriminate]. cbn [bind] in Ey. cbv zeta in Ey. destruct (Nat.ltb _ _); injection Ey as <- _ _; apply scatter_red; auto. }
  match type of E with bind (foldM ?f ?l ?s) _ = _ => destruct (foldM f l s) as [[[bs ls] pv]|] eqn:EF; [|discriminate];
    assert (HQ : forall l0 s0 s', Forall red (fst (fst s0)) -> foldM f l0 s0 = Ok s' -> Forall red (fst (fst s'))) end.
  { clear E EF bs ls pv. intros l s s' Hs E. revert s s' Hs E. induction l as [|kn l IH]; intros s s' Hs E; cbn [foldM] in E; [injection E as <-; auto|].
    destruct s as [[bs ls] pv]. match type of E with bind ?x _ = _ => destruct x as [s1|] eqn:E1; [|discriminate] end. cbn [bind] in E. apply (IH s1 s'); auto. clear E. cbn [fst snd] in *.
    destruct (nth_err o (fst kn)) as [x|] eqn:Ex; [|discriminate]. cbn [bind] in E1.
    destruct x as [[[b r] co]|]; [|injection E1 as <-; cbn [fst snd]; apply Forall_app; split; auto; apply zeros_red].
    match type of E1 with bind ?x _ = _ => destruct x as [l'|] eqn:El; [|discriminate] end. cbn [bind] in E1. injection E1 as <-. cbn [fst snd].
    apply Forall_app; split; auto. apply (proj1 (Forall_forall _ _) HO _ (nth_err_In _ _ _ Ex) b r co eq_refl). }
  cbn [bind] in E. injection E as <- _. apply HQ in EF; auto. constructor.
Qed.

Lemma first_red n deg B : first_differential S n deg = Ok (Some B) -> redm B.
Proof.
  unfold first_differential. intros E. destruct (page_dim1 _ _ _) as [t|]; [|discriminate]. cbn [bind] in E. destruct (Nat.eqb t 0); [discriminate|].
  destruct (spx_number _ _); [|discriminate]. cbn [bind] in E. destruct (cycle_dims _ _ _); [|discriminate]. cbn [bind] in E.
  match type of E with bind ?x _ = _ => destruct x as [[[dm R] pv]|]; [|discriminate] end. cbn [bind] in E.
  destruct (cech_diff_and_lift _ _ _ _ _) as [[B' l]|] eqn:EC; [|discriminate]. cbn [bind] in E. injection E as <-. eapply cech_red; eauto.
Qed.
End Range.
