(** * Elements of the cover with points have classes in degree 0 *)
From Coq Require Import QArith.
From Verif Require Import Base ListX SortX Lin Gauss_model Gauss_arith Gauss_solve Basis_model PH_model PH_lin PH_props Simp_model Spec_Simp Simp_lists Simp_diff Simp_props
  Spec_PH Spec_Rips Rips_bd Rips_chain Rips_props LC_model Spec_LC LC_props SS_model Spec_SS SS_inv SS_page SS_cech SS_lift SS_zig SS_first SS_fplift SS_double
  IK_lin IK_abs Spec_Bars Bars MPH_bars Bars_complex Spec_E2 Blocks SS_rows SS_glue SS_zero Spec_Cech SS_e2 Cover_model HP_model HP_row HP_gens HP_ext.
From Coq Require Import Sorted Permutation Znumtheory.
Local Open Scope Z_scope.

(** The coefficients of a boundary of degree 0 have sum 0. *)
Lemma bd_sum_zero N w : Zsum N (fun q => simplicial_bd N w [q]) = 0.
Proof.
  set (f := fun q v => if memn v [q] then 0 else (-1) ^ Z.of_nat (length (filter (fun u => Nat.ltb u v) [q])) * w (insert_vertex v [q])).
  assert (A : forall q v, f q v = - f v q).
  { intros q v. unfold f. cbn [memn existsb filter length insert_vertex]. unfold insert_vertex. cbn [filter].
    rewrite !orb_false_r. destruct (Nat.eqb_spec v q) as [->|H]; [rewrite Nat.eqb_refl; reflexivity|]. destruct (Nat.eqb_spec q v) as [->|_]; [congruence|].
    destruct (Nat.ltb_spec q v), (Nat.ltb_spec v q); try lia; cbn [length app Z.of_nat]; change (Z.of_nat 1) with 1; rewrite ?Z.pow_0_r, ?Z.pow_1_r; ring. }
  assert (X : Zsum N (fun q => Zsum N (fun v => f q v)) = - Zsum N (fun q => Zsum N (fun v => f q v))).
  { rewrite Zsum_swap at 1. rewrite <- Zsum_opp. apply Zsum_ext. intros v _. rewrite <- Zsum_opp. apply Zsum_ext. intros q _. apply A. }
  unfold simplicial_bd. change (Zsum N (fun q => Zsum N (fun v => f q v)) = 0). lia.
Qed.

Section Deg.
Variables (argsort : list Z -> list nat) (rnd : Z -> Z) (Dist : list (list Z)) (max_r max_dim p : Z)
  (IN : list (list (list nat))) (n0 : nat) (nerve : list (list simplex)).
Hypothesis HI : mv_input argsort Dist max_r max_dim p IN n0 nerve.
Variable S : ss.
Hypothesis PO : page_ok argsort rnd Dist max_r max_dim p IN n0 nerve S.
Hypothesis HN : pure_nerve n0 nerve.
Hypothesis Hlen : (1 < length nerve)%nat.
Let m := Z.to_nat max_dim.
Let Hp := mv_prime _ _ _ _ _ _ _ _ HI.
Let lev n := level n0 nerve n.
Let p2 : 2 <= p. Proof. destruct Hp. lia. Qed.
Let iff0 a : a mod p = 0 <-> cong p a 0. Proof. apply mod_cong_0. lia. Qed.
Let m_pos : (0 < m)%nat. Proof. pose proof (mv_max_dim _ _ _ _ _ _ _ _ HI). unfold m. lia. Qed.
Local Notation rb := (row_bars n0 nerve S).

Lemma point_class n k q : (n < length nerve)%nat -> (k < length (lev n))%nat -> In q (ins_of IN n k) -> b_bars (hom_of S n k 0) <> [].
Proof.
  intros Hn Hk Hq E. set (N := length Dist).
  pose proof (cov_lt _ _ _ _ (mv_cover _ _ _ _ _ _ _ _ HI) n k q Hq) as HqN.
  set (dl := fun s : list nat => if list_eq_dec Nat.eq_dec s [q] then 1 else 0).
  assert (Hdl : s_chain p (rips_in Dist IN n k 0) 0 dl).
  { intros s Hs. unfold dl in Hs. destruct (list_eq_dec Nat.eq_dec s [q]) as [->|]; [|rewrite Zmod_0_l in Hs; congruence].
    split; [|intros x [<-|[]]; exact Hq]. split; [|lia]. split; [reflexivity|]. split; [constructor; constructor|]. split; [intros x [<-|[]]; exact HqN|]. intros u v Hu Hv Huv. exfalso. cbn in Hu, Hv. lia. }
  assert (R0 : 0 < max_r) by apply (mv_max_r _ _ _ _ _ _ _ _ HI).
  assert (LC : local_cycle p Dist IN S n 0 k 0 (pull IN S n k 0 dl)) by (split; [apply pull_chain; exact Hdl|exact I]).
  pose proof (no_class _ _ _ _ _ _ _ _ _ HI S PO n 0 k 0 _ Hn Hk m_pos R0 E LC) as LB.
  apply (push_bounds _ _ _ _ _ _ _ _ _ HI S PO n k Hn Hk 0 0 _ m_pos) in LB. destruct LB as (_ & w & _ & W).
  assert (X : cong p (Zsum N (fun x => simplicial_bd N w [x])) (Zsum N (fun x => dl [x]))).
  { apply Zsum_cong. intros x Hx. rewrite <- (push_pull _ _ _ _ _ _ _ _ _ HI S PO n k Hn Hk 0 0 dl [x] R0 ltac:(lia) Hdl).
    apply cong_mod_iff; [lia|]. apply W; [constructor; constructor|reflexivity]. }
  rewrite bd_sum_zero in X. rewrite (Zsum_single _ q) in X.
  - unfold dl in X. destruct (list_eq_dec Nat.eq_dec [q] [q]); [|congruence]. symmetry in X. apply iff0 in X. rewrite Z.mod_1_l in X by lia. lia.
  - exact HqN.
  - intros l _ Hl. unfold dl. destruct (list_eq_dec Nat.eq_dec [l] [q]); [congruence|reflexivity].
Qed.

(** Over an element without classes in degree 0 there is nothing. *)
Lemma no_points n k d : (n < length nerve)%nat -> (k < length (lev n))%nat -> (d <= m)%nat -> b_bars (hom_of S n k 0) = [] -> ins_of IN n k = [] /\ simplices IN S n k d = [].
Proof.
  intros Hn Hk Hd E. assert (X : ins_of IN n k = []).
  { destruct (ins_of IN n k) as [|q l] eqn:EI; [reflexivity|]. exfalso. apply (point_class n k q Hn Hk); [rewrite EI; left; reflexivity|exact E]. }
  split; [exact X|]. destruct (simplices IN S n k d) as [|s l] eqn:ES; [reflexivity|]. exfalso.
  assert (Hs : In s (simplices IN S n k d)) by (rewrite ES; left; reflexivity).
  apply (GI argsort rnd Dist max_r max_dim p IN n0 nerve HI S PO n k d s Hn Hk Hd) in Hs. destruct Hs as [(H1 & _) H2]. rewrite X in H2. 
  destruct s as [|x s]; [discriminate|]. apply (H2 x). left. reflexivity.
Qed.

(** A column all of whose cycles bound has no bars. *)
Lemma no_row d n : (d < m)%nat -> (n < length nerve)%nat ->
  (forall k r v, (k < length (lev n))%nat -> r < max_r -> local_cycle p Dist IN S n d k r v -> local_bounds p Dist IN S n d k r v) -> rb d n = [].
Proof.
  intros Hd Hn H. destruct (rb d n) as [|x l] eqn:E; [reflexivity|]. exfalso.
  destruct (fam_pb _ _ _ _ _ _ _ _ _ HI S PO d Hd (proj2 HN) n) as (B1 & B2 & _). rewrite E in B1, B2.
  destruct (B1 x (or_introl eq_refl)) as [X1 X2]. destruct (B2 (fst x) ltac:(lia)) as (C1 & _ & C3).
  assert (FZ0 : fam_cycle p Dist IN n0 nerve S d n (fst x) (fam_gen n0 nerve S d n 0)).
  { apply C1; [cbn; lia|]. unfold bbirth, bdeath. cbn [nth]. lia. }
  specialize (C3 (fun k => if Nat.eqb k 0 then 1 else 0)).
  assert (Y : 1 mod p = 0); [|rewrite Z.mod_1_l in Y by lia; lia].
  refine (C3 _ _ 0%nat ltac:(cbn; lia)).
  - intros k Hk. destruct (Nat.eqb_spec k 0) as [->|]; [|reflexivity]. exfalso. apply Hk. unfold bbirth, bdeath. cbn [nth]. lia.
  - refine (sub_ext p _ (fam_gen n0 nerve S d n 0) _ (fam_bounds_sub argsort Dist max_r max_dim p IN n0 nerve HI S d n _) _ _).
    + intros i. rewrite (Zsum_single _ 0%nat); [cbn [Nat.eqb]; ring|cbn; lia|]. intros k Hk Hne. destruct (Nat.eqb_spec k 0) as [->|]; [congruence|ring].
    + destruct FZ0 as [Z1 Z2]. split; [exact Z1|]. intros k Hk. apply H; [exact Hk|lia|]. apply Z2. exact Hk.
Qed.

(** The hypothesis in terms of the Rips complexes of the intersections. *)
Lemma no_row_rips d n : (d < m)%nat -> (n < length nerve)%nat ->
  (forall k r c, (k < length (lev n))%nat -> r < max_r -> s_cycle p (length Dist) (rips_in Dist IN n k r) d c -> s_bounds p (length Dist) (rips_in Dist IN n k r) d c) -> rb d n = [].
Proof.
  intros Hd Hn H. apply no_row; auto. intros k r v Hk Hr Hv. apply (bounds_back _ _ _ _ _ _ _ _ _ HI S PO n k Hn Hk d r v Hr Hd); [apply Hv|].
  apply H; auto. apply (push_cycle _ _ _ _ _ _ _ _ _ HI S PO n k Hn Hk); [lia|exact Hv].
Qed.

Lemma over_points : classes n0 nerve S 1 0 <> 0%nat -> classes n0 nerve S 0 0 <> 0%nat.
Proof.
  intros H1 H0. apply H1. rewrite <- (rb_len n0 nerve S 0 1). rewrite (no_row 0 1 m_pos Hlen); [reflexivity|]. intros k r v Hk Hr [Hv _].
  assert (Empty : forall a, (a < length (lev 0))%nat -> ins_of IN 0 a = []).
  { intros a Ha. apply (no_points 0 a 0 ltac:(lia) Ha ltac:(lia)). destruct (b_bars (hom_of S 0 a 0)) as [|x l] eqn:E; [reflexivity|]. exfalso.
    assert (X : (start (famlen S 0 0) a + famlen S 0 0 a <= classes n0 nerve S 0 0)%nat).
    { rewrite <- (rb_len n0 nerve S 0 0), row_bars_length. apply start_end. exact Ha. }
    unfold famlen at 2 in X. rewrite E in X. cbn [length] in X. lia. }
  assert (Ins : ins_of IN 1 k = []).
  { destruct (ins_of IN 1 k) as [|q l] eqn:E; [reflexivity|]. exfalso.
    pose proof (mv_cover _ _ _ _ _ _ _ _ HI) as CV. assert (Hq : In q (nth k (nth 1 IN []) [])) by (unfold ins_of in E; rewrite E; left; reflexivity).
    pose proof (proj1 (cov_meet _ _ _ _ CV 1%nat k q ltac:(lia) Hk) Hq) as HM.
    destruct (cov_simp _ _ _ _ CV) as (WF & _ & _). assert (Hs : In (nth k (lev 1) []) (lev 1)) by (apply nth_In; exact Hk).
    destruct (WF 1%nat _ Hs) as (W1 & W2 & W3). destruct (nth k (lev 1) []) as [|a s] eqn:Es; [discriminate|].
    specialize (HM a ltac:(unfold lev in Es; rewrite Es; left; reflexivity)). specialize (W3 a (or_introl eq_refl)).
    assert (Hv0 : (a < length (lev 0))%nat) by (unfold lev, level; rewrite map_length, seq_length; exact W3).
    specialize (Empty a Hv0). unfold ins_of in Empty. rewrite Empty in HM. destruct HM. }
  exists (fun _ => 0). split; [intros j Hj; rewrite Zmod_0_l in Hj; congruence|]. intros j.
  assert (Z0 : local_bd IN S 1 0 k (fun _ => 0) j = 0) by (unfold local_bd; apply Zsum_0; intros; ring). rewrite Z0, Zmod_0_l. symmetry.
  destruct (Z.eq_dec (v j mod p) 0) as [X|X]; [exact X|]. exfalso. destruct (Hv j X) as [J _].
  assert (In (nth j (simplices IN S 1 k 0) []) (simplices IN S 1 k 0)) as HT by (apply nth_In; exact J).
  apply (GI argsort rnd Dist max_r max_dim p IN n0 nerve HI S PO 1 k 0 _ Hlen Hk ltac:(lia)) in HT. destruct HT as [(H2 & _) H3]. rewrite Ins in H3.
  destruct (nth j (simplices IN S 1 k 0) []) as [|x s]; [discriminate|]. apply (H3 x). left. reflexivity.
Qed.
End Deg.
