(** * Which of several equal columns [gauss_col_rad] uses *)
From Verif Require Import Base ListX Lin Gauss_model Gauss_arith Gauss_col Gauss_solve Gauss_rad.
From Coq Require Import Znumtheory.
Local Open Scope Z_scope.

Lemma skip_cons {X} (l : list X) a d : (a < length l)%nat -> skipn a l = nth a l d :: skipn (S a) l.
Proof. revert a. induction l as [|x l IH]; intros [|a] H; cbn in H; try lia; [reflexivity|]. cbn [skipn nth]. rewrite (IH a) by lia. destruct l; reflexivity. Qed.

Section First.
Variables (A : mat) (Rd : list Z) (s : nat) (p : Z).
Hypothesis HA : wf_mat A.
Hypothesis Hp2 : 2 <= p.
Let N := ncols A.
Hypothesis HRl : (N <= length Rd)%nat.
Let rad (k : nat) : Z := nth k Rd 0.
Let Ac (k : nat) : vec := vmod (col A k) p.
Local Notation all := (firstn s (rad_all A Rd p)).

(** No earlier column which may be used has the pivot of the column [l]. *)
Definition fresh (j l : nat) : Prop := forall k, (k < l)%nat -> rad k <= rad j -> index_pivot (Ac k) <> index_pivot (Ac l).
Definition freshT (j : nat) (t : vec) : Prop := length t = N /\ rng p t /\ forall l, (l < s)%nat -> vget t l <> 0 -> fresh j l.

Lemma scan_fresh j pv : (s <= j < N)%nat -> forall a r t r' t', freshT j t -> length r = nrows A ->
  (forall k, (k < a)%nat -> rad k <= rad j -> index_pivot (Ac k) <> pv) \/ (forall i, vget r i = 0) ->
  rad_scan (skipn a all) r t (rad j) pv p = Ok (r', t') -> freshT j t' /\ length r' = nrows A.
Proof.
  intros Hj. assert (La : length all = s) by (rewrite firstn_length, rad_all_length by auto; unfold N in *; lia).
  intros a. remember (s - a)%nat as n eqn:En. revert a En. induction n as [|n IH]; intros a En r t r' t' HT Hr HC E.
  { rewrite skipn_all2 in E by lia. cbn in E. injection E as <- <-. auto. }
  assert (Ea : skipn a all = (Ac a, vunit N a, rad a) :: skipn (S a) all).
  { rewrite (skip_cons all a (@nil Z, @nil Z, 0)) by lia. f_equal. rewrite nth_firstn by lia. apply rad_all_nth; auto. unfold N in *; lia. }
  rewrite Ea in E. cbn [rad_scan] in E.
  destruct (Z.leb_spec (rad a) (rad j)) as [Hle|Hgt]; cbn [andb] in E.
  2:{ refine (IH (S a) ltac:(lia) r t r' t' HT Hr _ E). destruct HC as [HC|HC]; [left|right; exact HC]. intros k Hk Hkr. destruct (Nat.eq_dec k a) as [->|]; [lia|apply HC; auto; lia]. }
  destruct (Z.eqb_spec (index_pivot (Ac a)) pv) as [Hpv|Hpv].
  2:{ refine (IH (S a) ltac:(lia) r t r' t' HT Hr _ E). destruct HC as [HC|HC]; [left|right; exact HC]. intros k Hk Hkr. destruct (Nat.eq_dec k a) as [->|]; [exact Hpv|apply HC; auto; lia]. }
  destruct (inv_mod_p (vget (Ac a) (Z.to_nat pv)) p) as [inv|]; [|discriminate]. cbn [bind] in E.
  set (q := (vget r (Z.to_nat pv) * inv) mod p) in *. fold (elim p q r (Ac a)) in E. fold (elim p q t (vunit N a)) in E.
  destruct HT as (T1 & T2 & T3).
  assert (Lr : length r = length (Ac a)) by (rewrite Hr; symmetry; apply Ac_length; auto; unfold N in *; lia).
  assert (Lt : length t = length (vunit N a)) by (rewrite vunit_length; exact T1).
  assert (HT' : freshT j (elim p q t (vunit N a))).
  { split; [rewrite elim_length; auto|]. split; [intros i; apply rng_elim; [lia|exact Lt]|]. intros l Hl Hne. rewrite vget_elim in Hne by auto.
    rewrite vget_vunit in Hne by (unfold N in *; lia). destruct (Nat.eqb_spec l a) as [->|Hla].
    - destruct HC as [HC|HC]; [intros k Hk Hkr; rewrite Hpv; apply HC; auto|].
      apply T3; [exact Hl|]. intros X. apply Hne. replace q with 0 by (unfold q; rewrite HC; reflexivity). rewrite X. reflexivity.
    - apply T3; [exact Hl|]. intros X. apply Hne. rewrite X, Z.mul_0_r. reflexivity. }
  destruct (vany (elim p q r (Ac a))) eqn:Ev.
  - injection E as <- <-. split; [exact HT'|]. rewrite elim_length; auto.
  - refine (IH (S a) ltac:(lia) _ _ r' t' HT' _ (or_intror (proj1 (vany_false _) Ev)) E). rewrite elim_length; auto.
Qed.

Lemma while_fresh j : (s <= j < N)%nat -> forall fuel r t pv r' t', freshT j t -> length r = nrows A ->
  rad_while fuel all r t (rad j) pv p = Ok (r', t') -> freshT j t'.
Proof.
  intros Hj. induction fuel as [|f IH]; intros r t pv r' t' HT Hr E; cbn [rad_while] in E; [discriminate|].
  destruct (pv >? -1); [|injection E as <- <-; exact HT].
  destruct (rad_scan all r t (rad j) pv p) as [[r1 t1]|] eqn:Es; [|discriminate]. cbn [bind] in E.
  destruct (scan_fresh j pv Hj 0 r t r1 t1 HT Hr ltac:(left; intros k Hk; lia) Es) as [H1 H2].
  destruct (negb _); [|discriminate]. eapply IH; eauto.
Qed.

Lemma gauss_col_rad_first Red T j l : gauss_col_rad A Rd s p = Ok (Red, T) -> (s <= j < N)%nat -> (l < s)%nat -> get T l j <> 0 -> fresh j l.
Proof.
  intros E Hj Hl Hne. unfold gauss_col_rad in E. fold N in E. destruct (Nat.ltb_spec (length Rd) N); [lia|]. change (combine (combine (cols (mmod A p)) (cols (mident N))) Rd) with (rad_all A Rd p) in E.
  destruct (rad_for _ _ _ _) as [out|] eqn:EF; [|discriminate]. cbn [bind] in E. injection E as _ <-.
  apply rad_for_spec in EF; auto. rewrite skipn_length, rad_all_length in EF by auto. destruct EF as [EL EF].
  unfold get in Hne. rewrite col_map_snd in Hne. unfold dcol in Hne.
  assert (L : length (map fst all) = s) by (rewrite map_length, firstn_length, rad_all_length by auto; unfold N in *; lia).
  rewrite app_nth2, L in Hne by lia. fold N in EF. specialize (EF (j - s)%nat ltac:(lia)). rewrite skipn_rad_nth in EF by (auto; unfold N in *; lia).
  replace (s + (j - s))%nat with j in EF by lia. destruct (nth (j - s) out ([], [])) as [r' t']. cbn [snd] in Hne.
  apply while_fresh in EF; auto.
  - apply EF; auto.
  - split; [apply vunit_length|]. split; [intros i; rewrite vget_vunit by (unfold N in *; lia); destruct (Nat.eqb _ _); lia|].
    intros k Hk X. fold N in X. rewrite vget_vunit in X by (unfold N in *; lia). destruct (Nat.eqb_spec k j); [lia|congruence].
  - apply Ac_length; auto. unfold N in *; lia.
Qed.
End First.
