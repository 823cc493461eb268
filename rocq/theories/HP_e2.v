(** * The second page of the code against its specification *)
From Verif Require Import Base Basis_model PH_model Simp_model Spec_Simp Spec_Rips Spec_Bars SS_model Spec_SS SS_inv SS_page Spec_E2 Spec_Cech SS_e2 HP_model HP_second.
From Coq Require Import Znumtheory.
Local Open Scope Z_scope.

Theorem mv_second_page argsort rnd Dist max_r max_dim p IN n0 nerve S P Hs : mv_input argsort Dist max_r max_dim p IN n0 nerve -> pure_nerve n0 nerve ->
  (forall x y, filtration_value Dist max_r x -> filtration_value Dist max_r y -> rnd x <= rnd y -> x <= y) ->
  mv_ss argsort rnd Dist max_r max_dim p IN n0 nerve = Ok (S, P, Hs) ->
  forall n d, (n < length nerve)%nat -> (d < Z.to_nat max_dim)%nat -> exists H, tget (h_hom P) 1 n d = Ok H /\
    barcode p (e2_cycle p Dist IN n0 nerve d n) (e2_bounds p Dist IN n0 nerve d n) max_r (b_bars H).
Proof.
  intros HI HN Hrnd E n d Hn Hd. destruct (second_page _ _ _ _ _ _ _ _ _ HI HN Hrnd S P Hs E n d Hn Hd) as (_ & H & EH & Hb). exists H. split; auto.
  unfold mv_ss in E. destruct (zero_page argsort rnd Dist max_r max_dim p IN n0 nerve) as [S'|] eqn:EZ; [|discriminate]. cbn [bind] in E.
  match type of E with bind ?x _ = _ => destruct x as [P1|] eqn:E1; [|discriminate] end. cbn [bind] in E.
  match type of E with bind ?x _ = _ => destruct x as [P2|] eqn:E2; [|discriminate] end. cbn [bind] in E.
  destruct (tget (h_hom P2) _ 0 0); [|discriminate]. cbn [bind] in E. destruct (mapM _ _); [|discriminate]. cbn [bind] in E. injection E as E' _ _. subst S'.
  apply (e2_barcode argsort rnd Dist max_r max_dim p IN n0 nerve HI S (zero_page_ok _ _ _ _ _ _ _ _ _ HI S EZ) d Hd (proj2 HN)). exact Hb.
Qed.
