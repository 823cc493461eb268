(** * The relative reduction when the second block of columns is the identity

    This is the case used for a quotient of a whole module: the columns from [s] on are the generators themselves.
    A column of that block is then never changed while its bar goes on, and when its bar ends it is, on the rows which
    are alive, a combination of the columns before [s]. *)
From Verif Require Import Base ListX SortX Lin Gauss_model Gauss_arith Gauss_col Basis_model PH_model IK_model IK_pivot IK_lin IK_phase IK_kphase IK_inv IK_rel.
From Coq Require Import Znumtheory Sorting.Sorted.
Local Open Scope Z_scope.

Lemma pcr_step f act prev r t p k : index_pivot (map (fun i => vget r i mod p) act) = Z.of_nat k ->
  pivot_check_reduce (S f) act prev r t p =
    match find (fun c => snd c =? Z.of_nat (nth k act 0%nat)) prev with
    | None => Ok (r, t, Z.of_nat (nth k act 0%nat))
    | Some (rk, tk, _) =>
        inv <- inv_mod_p (vget rk (nth k act 0%nat)) p ;;
        pivot_check_reduce f act prev (add_arrays_mod_c (vscale inv rk) r p) (add_arrays_mod_c (vscale inv tk) t p) p
    end.
Proof.
  intros E. cbn [pivot_check_reduce]. rewrite E. destruct (Z.eqb_spec (Z.of_nat k) (-1)); [lia|]. rewrite Nat2Z.id. reflexivity.
Qed.

(** Reducing does not bring in anything above the pivot. *)
Lemma pcr_above p m act prev j : prime p -> StronglySorted lt act -> (forall i, In i act -> (i < m)%nat) ->
  Forall (pv_ok p m act) prev ->
  forall fuel r t r' t' q, length r = m -> (forall i, In i act -> (j < i)%nat -> cong p (vget r i) 0) ->
  pivot_check_reduce fuel act prev r t p = Ok (r', t', q) ->
  forall i, In i act -> (j < i)%nat -> cong p (vget r' i) 0.
Proof.
  intros Hp Hact Hlt Hprev. induction fuel as [|f IH]; intros r t r' t' q Hl Hz E; [discriminate|].
  destruct (index_pivot_cases (map (fun i => vget r i mod p) act)) as [[_ E1]|(k & Hk & E1)].
  { cbn [pivot_check_reduce] in E. rewrite E1 in E. cbn in E. injection E as <- <- <-. exact Hz. }
  rewrite (pcr_step _ _ _ _ _ _ k E1) in E. destruct (restr_piv p m act Hp Hact Hlt r k Hk) as [Hkl [P1 P2]].
  set (x := nth k act 0%nat) in *. assert (Hx : In x act) by (apply nth_In; auto).
  assert (Hxj : (x <= j)%nat).
  { destruct (le_lt_dec x j) as [|C]; auto. elim P1. unfold on. rewrite (proj2 (memn_In x act) Hx : mem act x = true). apply Hz; auto. }
  destruct (find _ prev) as [[[rk tk] z]|] eqn:Ef; [|injection E as <- <- <-; exact Hz].
  apply find_some in Ef. destruct Ef as [Hin Ez]. cbn [snd] in Ez. apply Z.eqb_eq in Ez. subst z.
  pose proof (proj1 (Forall_forall _ _) Hprev _ Hin) as (Hlk & Hnk & Hntk & Hpk). specialize (Hpk ltac:(lia)). rewrite Nat2Z.id in Hpk.
  destruct (inv_mod_p (vget rk x) p) as [inv|]; [|discriminate]. cbn [bind] in E.
  assert (Hl1 : length (vscale inv rk) = length r) by (unfold vscale; rewrite map_length; congruence).
  refine (IH _ _ r' t' q _ _ E).
  - rewrite add_arrays_length; congruence.
  - intros i Hi Hji. rewrite vget_add_arrays by auto. rewrite cong_mod, vget_vscale, (Hz i Hi Hji).
    destruct Hpk as [_ Hpk]. specialize (Hpk i ltac:(lia)). unfold on in Hpk. rewrite (proj2 (memn_In i act) Hi : mem act i = true) in Hpk. rewrite Hpk. apply cong_eq. ring.
Qed.

(** If no earlier column has the pivot, nothing happens. *)
Lemma pcr_keep p m act prev j fuel r t : prime p -> StronglySorted lt act -> (forall i, In i act -> (i < m)%nat) ->
  is_piv p (on (mem act) (vget r)) j -> (forall c, In c prev -> snd c <> Z.of_nat j) -> fuel <> 0%nat ->
  pivot_check_reduce fuel act prev r t p = Ok (r, t, Z.of_nat j).
Proof.
  intros Hp Hact Hlt [P1 P2] Hn Hf. destruct fuel as [|f]; [contradiction|].
  destruct (index_pivot_cases (map (fun i => vget r i mod p) act)) as [[E0 E1]|(k & Hk & E1)].
  { exfalso. pose proof (proj1 (restr_zero p m act Hp Hlt r) E1 j) as X. contradiction. }
  rewrite (pcr_step _ _ _ _ _ _ k E1). destruct (restr_piv p m act Hp Hact Hlt r k Hk) as [Hkl [Q1 Q2]].
  assert (Ej : nth k act 0%nat = j).
  { destruct (lt_eq_lt_dec (nth k act 0%nat) j) as [[X|X]|X]; auto; exfalso.
    - apply P1. apply Q2. auto.
    - apply Q1. apply P2. auto. }
  rewrite Ej. destruct (find _ prev) as [[[rk tk] z]|] eqn:Ef; auto.
  apply find_some in Ef. destruct Ef as [Hin Ez]. apply Z.eqb_eq in Ez. elim (Hn _ Hin). auto.
Qed.

(** ** What the loop over the columns did to each of them *)
Definition pcols (l : list icol) : list (vec * vec * Z) := map (fun c => (ic_col c, ic_T c, ic_piv c)) l.

Lemma memz_true x l : memz x l = true -> In x l.
Proof. unfold memz. intros H. apply existsb_exists in H. destruct H as (y & Hy & E). apply Z.eqb_eq in E. congruence. Qed.
Lemma memi_true x l : memi x l = true -> 0 <= x /\ In (Z.to_nat x) l.
Proof.
  unfold memi. intros H. apply existsb_exists in H. destruct H as (y & Hy & E). apply Z.eqb_eq in E. subst x. rewrite Nat2Z.id. split; [lia|auto].
Qed.

Lemma pcr_sign p : forall fuel act prev r t r' t' q, pivot_check_reduce fuel act prev r t p = Ok (r', t', q) -> q = -1 \/ 0 <= q.
Proof.
  induction fuel as [|f IH]; intros act prev r t r' t' q E; [discriminate|]. cbn [pivot_check_reduce] in E.
  destruct (_ =? -1); [injection E as <- <- <-; auto|].
  destruct (find _ prev) as [[[rk tk] z]|]; [|injection E as <- <- <-; right; lia].
  destruct (inv_mod_p _ p) as [inv|]; [|discriminate]. cbn [bind] in E. eapply IH; eauto.
Qed.

Section Fold.
Variables (F : mat) (actB dyA birA dyB : list nat) (rad p : Z) (s cap : nat).
Hypothesis Hs : (0 < s)%nat.

Definition touched (c : icol) (J : nat) (ims2 : list icol) : Prop :=
  (0 <= ic_piv c /\ vget (ic_col c) (Z.to_nat (ic_piv c)) mod p = 0) \/
  (0 <= ic_piv c /\ In (Z.to_nat (ic_piv c)) dyB) \/
  (0 <= ic_piv c /\ exists i, (i < J)%nat /\ pv ims2 i = ic_piv c) \/
  In J birA.

Definition outcome (c : icol) (J : nat) (ims2 : list icol) : Prop :=
  let c2 := nth J ims2 dI in
  c2 = c \/
  touched c J ims2 /\ exists r t q,
    pivot_check_reduce (pcr_fuel actB p) actB (pcols (firstn J ims2)) (ic_col c) (ic_T c) p = Ok (r, t, q) /\
    (q <> -1 -> c2 = ICol (ic_birth c) (ic_death c) r t q) /\
    (q = -1 -> ic_piv c2 = -1 /\ ic_death c2 = rad /\ ic_T c2 = map (fun i => if Nat.ltb i s then 0 else vget t i) (seq 0 (length t))).

Lemma im_fold_spec todo : forall acc newp ker ims2 newp2 ker2,
  (forall x, In x newp -> 0 <= x /\ exists i, (i < length acc)%nat /\ pv acc i = x) ->
  foldM (im_step F actB dyA birA dyB rad p s cap false) todo (acc, newp, ker) = Ok (ims2, newp2, ker2) ->
  length ims2 = (length acc + length todo)%nat /\ firstn (length acc) ims2 = acc /\
  forall j, (j < length todo)%nat -> outcome (nth j todo dI) (length acc + j)%nat ims2.
Proof.
  induction todo as [|c todo IH]; intros acc newp ker ims2 newp2 ker2 Hnp E.
  { cbn in E. injection E as <- <- <-. rewrite firstn_all. cbn [length]. repeat split; [lia|]. intros j Hj. lia. }
  cbn [foldM] in E.
  destruct (im_step F actB dyA birA dyB rad p s cap false (acc, newp, ker) c) as [[[acc1 newp1] ker1]|] eqn:E1; [|discriminate]. cbn [bind] in E.
  assert (HS : exists c2, acc1 = acc ++ [c2] /\ (forall x, In x newp1 -> In x newp \/ 0 <= x /\ x = ic_piv c2) /\
    (c2 = c \/ ((0 <= ic_piv c /\ vget (ic_col c) (Z.to_nat (ic_piv c)) mod p = 0) \/ memi (ic_piv c) dyB = true \/ memz (ic_piv c) newp = true \/ memn (length acc) birA = true) /\
      exists r t q, pivot_check_reduce (pcr_fuel actB p) actB (pcols acc) (ic_col c) (ic_T c) p = Ok (r, t, q) /\
      (q <> -1 -> c2 = ICol (ic_birth c) (ic_death c) r t q) /\
      (q = -1 -> ic_piv c2 = -1 /\ ic_death c2 = rad /\ ic_T c2 = map (fun i => if Nat.ltb i s then 0 else vget t i) (seq 0 (length t))))).
  { unfold im_step in E1. fold (pcols acc) in E1.
    match type of E1 with (if ?b then _ else _) = _ => destruct b eqn:Eb end.
    2:{ injection E1 as <- <- <-. exists c. split; auto. }
    destruct (pivot_check_reduce (pcr_fuel actB p) actB (pcols acc) (ic_col c) (ic_T c) p) as [[[r t] q]|] eqn:Ep; [|discriminate]. cbn [bind] in E1.
    assert (Tr : (0 <= ic_piv c /\ vget (ic_col c) (Z.to_nat (ic_piv c)) mod p = 0) \/ memi (ic_piv c) dyB = true \/ memz (ic_piv c) newp = true \/ memn (length acc) birA = true).
    { rewrite !orb_true_iff, andb_true_iff, Z.leb_le, Z.eqb_eq in Eb. tauto. }
    destruct (Z.eqb_spec q (-1)) as [->|Hn]; cbn [negb] in E1.
    - replace (Nat.eqb s 0) with false in E1 by (symmetry; apply Nat.eqb_neq; lia). rewrite andb_false_r in E1. cbn [bind] in E1.
      replace (Nat.ltb 0 s) with true in E1 by (symmetry; apply Nat.ltb_lt; lia). injection E1 as <- <- <-.
      eexists. split; [reflexivity|]. split; [auto|]. right. split; auto. exists r, t, (-1). split; auto. split; [intros X; elim X; reflexivity|]. intros _. cbn. auto.
    - injection E1 as <- <- <-. eexists. split; [reflexivity|]. cbn [ic_piv]. split.
      + intros x Hx. apply in_app_or in Hx. destruct Hx as [Hx|[<-|[]]]; auto. right. split; auto. destruct (pcr_sign _ _ _ _ _ _ _ _ _ Ep); [contradiction|auto].
      + right. split; auto. exists r, t, q. split; auto. split; auto. intros X. contradiction. }
  destruct HS as (c2 & -> & Hn1 & Hc2).
  destruct (IH (acc ++ [c2]) newp1 ker1 ims2 newp2 ker2) as (L & Ef & Ho); [|exact E|].
  { intros x Hx. destruct (Hn1 x Hx) as [Hx'|[Hx' ->]].
    - destruct (Hnp x Hx') as (H0 & i & Hi & Hpi). split; auto. exists i. rewrite app_length. cbn [length]. split; [lia|]. rewrite pv_snoc; auto.
    - split; auto. exists (length acc). rewrite app_length. cbn [length]. split; [lia|]. unfold pv. rewrite nth_middle. reflexivity. }
  rewrite app_length in *. cbn [length] in *.
  assert (Ef0 : firstn (length acc) ims2 = acc).
  { replace (length acc) with (Nat.min (length acc) (length acc + 1))%nat by lia. rewrite <- firstn_firstn, Ef.
    rewrite firstn_app, Nat.sub_diag, firstn_O, app_nil_r, firstn_all. reflexivity. }
  assert (Hnth : forall i, (i < length acc)%nat -> nth i ims2 dI = nth i acc dI).
  { intros i Hi. transitivity (nth i (firstn (length acc) ims2) dI); [|rewrite Ef0; reflexivity]. symmetry; apply nth_firstn; auto. }
  split; [lia|]. split; auto. intros j Hj. destruct j as [|j].
  - cbn [nth]. rewrite Nat.add_0_r.
    assert (E2 : nth (length acc) ims2 dI = c2).
    { transitivity (nth (length acc) (firstn (length acc + 1) ims2) dI).
      - symmetry. apply nth_firstn. lia.
      - rewrite Ef. apply nth_middle. }
    unfold outcome. rewrite E2, Ef0. destruct Hc2 as [|[Tr R]]; [left; auto|right]. split; auto.
    destruct Tr as [T|[T|[T|T]]].
    + left. auto.
    + right; left. apply memi_true; auto.
    + right; right; left. apply memz_true in T. destruct (Hnp _ T) as (H0 & i & Hi & Hpi). split; auto. exists i. split; auto.
      rewrite <- Hpi. unfold pv. rewrite Hnth; auto.
    + right; right; right. apply memn_In. auto.
  - cbn [nth]. replace (length acc + S j)%nat with (length acc + 1 + j)%nat by lia. apply Ho. lia.
Qed.
End Fold.

Lemma is_piv_unique p v a b : is_piv p v a -> is_piv p v b -> a = b.
Proof.
  intros [A1 A2] [B1 B2]. destruct (lt_eq_lt_dec a b) as [[X|X]|X]; auto; exfalso; [apply B1, A2|apply A1, B2]; auto.
Qed.

(** ** The invariant *)
Section UInv.
Variables (p : Z) (F : mat) (s : nat) (bA dA bB dB : nat -> Z).
Notation m := (nrows F).
Notation n := (ncols F).
Hypothesis Hp : prime p.
Hypothesis HF : wf_mat F.
Hypothesis Hs : (0 < s)%nat.
Hypothesis HbarA : forall i, (s <= i < n)%nat -> bA i < dA i.
Hypothesis Hsort : forall i j, (s <= i <= j)%nat -> (j < n)%nat -> bA i <= bA j.
Hypothesis Hbirth : forall j i, (j < n)%nat -> (i < m)%nat -> ~ cong p (fF F j i) 0 -> bB i <= bA j.
Hypothesis Hdeath : forall j i, (s <= j < n)%nat -> (i < m)%nat -> ~ cong p (fF F j i) 0 -> dB i <= dA j.
Notation alB := (alive m bB dB).
Notation RI := (RInv p F s bA dA bB dB).
Notation NB := (NB p F s bA bB dB).

Definition unit_tail : Prop :=
  n = (s + m)%nat /\
  forall j, (j < m)%nat -> bA (s + j)%nat = bB j /\ dA (s + j)%nat = dB j /\ forall i, (i < m)%nat -> cong p (fF F (s + j) i) (funit j i).

Record UInv (rho : Z) (ims : list icol) : Prop := {
  u_unit : forall j, (j < m)%nat -> pv ims (s + j) <> -1 -> forall i, cong p (fT ims (s + j) i) (funit (s + j) i);
  u_low : forall j, (j < m)%nat -> pv ims (s + j) = -1 -> forall i, (i < s)%nat -> cong p (fT ims (s + j) i) 0;
  u_dead : forall j, (j < m)%nat -> pv ims (s + j) = -1 -> NB (ic_death (nth (s + j) ims dI)) (mv F s ims (s + j));
  u_piv : forall j, (j < m)%nat -> pv ims (s + j) = -1 -> alB rho j = true -> exists i, (i < s)%nat /\ pv ims i = Z.of_nat j
}.

Section Step.
Hypothesis HU : unit_tail.
Variables (done : list Z) (rho rad : Z) (ims : list icol) (dyA actB birA dyB : list nat).
Hypothesis HI : RI done rho ims.
Hypothesis Hnext : next F bA dA bB dB done rho rad.
Hypothesis HdyA : forall i, In i dyA <-> (i < n)%nat /\ dA i = rad.
Hypothesis HactB : StronglySorted lt actB.
Hypothesis HactB' : forall i, mem actB i = alB rad i.
Hypothesis HbirA : forall i, In i birA <-> (i < n)%nat /\ bA i = rad.
Hypothesis HdyB : forall i, In i dyB <-> (i < m)%nat /\ dB i = rad.
Variables (ims2 : list icol) (newp : list Z) (ker2 : list kcol) (cap : nat).
Hypothesis HE : foldM (im_step F actB dyA birA dyB rad p s cap false) (map (rel_kill s dyA rad) (enum ims)) ([], [], []) = Ok (ims2, newp, ker2).
Hypothesis HI2 : RI (done ++ [rad]) rad ims2.
Hypothesis HV : UInv rho ims.

Lemma unit_col j ims' done' rho' : RI done' rho' ims' -> (j < m)%nat ->
  (forall i, cong p (fT ims' (s + j) i) (funit (s + j) i)) -> forall i, (i < m)%nat -> cong p (fC ims' (s + j) i) (funit j i).
Proof.
  intros HI' Hj Hu i Hi. destruct HU as [Hn HUj].
  rewrite (ri_FT _ _ _ _ _ _ _ _ _ _ HI' (s + j)%nat ltac:(lia) i).
  rewrite (lc_cong p n _ (funit (s + j)) (fF F) (fF F) i); [|intros k _; apply Hu|reflexivity].
  rewrite lc_unit by lia. apply HUj; auto.
Qed.

Lemma unit_is_piv j r (v : fvec) : (j < m)%nat -> alB r j = true -> (forall i, (i < m)%nat -> cong p (v i) (funit j i)) -> is_piv p (on (alB r) v) j.
Proof.
  intros Hj Ha Hv. split.
  - unfold on. rewrite Ha, (Hv j Hj). unfold funit. rewrite Nat.eqb_refl. apply (prime_1_not_0 p Hp).
  - intros i Hi. unfold on. destruct (alB r i) eqn:E; [|reflexivity]. apply alive_iff in E. rewrite (Hv i ltac:(tauto)). unfold funit.
    destruct (Nat.eqb_spec i j); [lia|]. reflexivity.
Qed.

Lemma unit_step : UInv rad ims2.
Proof.
  destruct HU as [Hn HUj]. destruct Hnext as (N1 & N2 & N3 & N4).
  assert (Hkl : length (map (rel_kill s dyA rad) (enum ims)) = n).
  { unfold enum. rewrite map_length, combine_length, seq_length, (ri_len _ _ _ _ _ _ _ _ _ _ HI). lia. }
  destruct (im_fold_spec F actB dyA birA dyB rad p s cap Hs _ [] [] [] ims2 newp ker2 ltac:(intros x []) HE) as (L & _ & Ho).
  cbn [length Nat.add] in L, Ho. rewrite Hkl in L, Ho. clear Hkl.
  assert (Hhit : forall j, (j < n)%nat -> (hit s ims dyA j = true <-> (s <= j)%nat /\ dA j = rad /\ pv ims j <> -1)).
  { intros j Hj. apply (hit_iff F s dA rad ims dyA HdyA j Hj). }
  assert (Hkn : forall j, (j < n)%nat -> nth j (map (rel_kill s dyA rad) (enum ims)) dI = if hit s ims dyA j then set_piv (set_death (nth j ims dI) rad) (-1) else nth j ims dI).
  { intros j Hj. apply (kims_nth p F s bA dA bB dB Hs HbarA Hsort Hbirth Hdeath done rho rad ims dyA HI HdyA j Hj). }
  assert (Hborn : forall j, (j < n)%nat -> pv ims j <> -2 -> bA j <= rho).
  { intros j Hj Hx. destruct (Z_le_gt_dec (bA j) rho) as [|X]; auto. elim Hx. apply (ri_unborn _ _ _ _ _ _ _ _ _ _ HI j Hj). lia. }
  assert (Hprevok : forall J, (J <= n)%nat -> Forall (pv_ok p m actB) (pcols (firstn J ims2))).
  { intros J HJ. apply Forall_forall. intros x Hx. unfold pcols in Hx. apply in_map_iff in Hx. destruct Hx as (y & <- & Hy).
    apply In_nth with (d := dI) in Hy. destruct Hy as (k & Hk & <-). rewrite firstn_length in Hk. rewrite nth_firstn by lia.
    destruct (ri_wf _ _ _ _ _ _ _ _ _ _ HI2 k ltac:(lia)) as (W1 & W2 & W3 & W4). unfold pv_ok. repeat split; auto.
    - pose proof (ri_piv _ _ _ _ _ _ _ _ _ _ HI2 k ltac:(lia) H) as [Q _]. intros C. apply Q. rewrite <- C. unfold on. rewrite HactB'. reflexivity.
    - pose proof (ri_piv _ _ _ _ _ _ _ _ _ _ HI2 k ltac:(lia) H) as [_ Q]. intros l Hl. rewrite <- (Q l Hl). unfold on. rewrite HactB'. reflexivity. }
  assert (HpT : forall J, (J <= n)%nat -> Forall (fun c : vec * vec * Z => length (snd (fst c)) = n) (pcols (firstn J ims2))).
  { intros J HJ. apply Forall_forall. intros x Hx. unfold pcols in Hx. apply in_map_iff in Hx. destruct Hx as (y & <- & Hy).
    apply In_nth with (d := dI) in Hy. destruct Hy as (k & Hk & <-). rewrite firstn_length in Hk. rewrite nth_firstn by lia.
    destruct (ri_wf _ _ _ _ _ _ _ _ _ _ HI2 k ltac:(lia)) as (W1 & W2 & W3 & W4). exact W2. }
  assert (Hactlt : forall i, In i actB -> (i < m)%nat).
  { intros i Hi. assert (X : mem actB i = true) by (apply memn_In; auto). rewrite HactB' in X. apply alive_iff in X. tauto. }
  (* a living row which is the pivot of a column of the first block stays so *)
  assert (Hkeep : forall i j, (i < s)%nat -> (j < m)%nat -> pv ims i = Z.of_nat j -> alB rad j = true -> exists i', (i' < s)%nat /\ pv ims2 i' = Z.of_nat j).
  { intros i j Hi Hj Hpi Ha. destruct (Ho i ltac:(lia)) as [E|[T _]].
    - rewrite (Hkn i ltac:(lia)) in E. replace (hit s ims dyA i) with false in E.
      2:{ symmetry. apply not_true_is_false. intros X. apply Hhit in X; lia. }
      exists i. split; auto. unfold pv in *. rewrite E. auto.
    - rewrite (Hkn i ltac:(lia)) in T. replace (hit s ims dyA i) with false in T.
      2:{ symmetry. apply not_true_is_false. intros X. apply Hhit in X; lia. }
      unfold touched in T. fold (pv ims i) in T. rewrite Hpi, Nat2Z.id in T.
      assert (Hnd : ~ In j dyB) by (intros X; apply HdyB in X; apply alive_iff in Ha; lia).
      destruct T as [[_ T]|[[_ T]|[(_ & i' & Hi' & T)|T]]].
      + exfalso. pose proof (r_stay p F s bA dA bB dB Hs HbarA Hsort Hbirth Hdeath done rho rad ims dyA HI Hnext HdyA actB birA dyB HactB' HbirA HdyB i ltac:(lia)) as X.
        rewrite Hpi, Nat2Z.id in X. destruct (X ltac:(lia) Hnd) as [X1 _]. apply X1. unfold on. rewrite Ha. 
        change (fC ims i j) with (vget (ic_col (nth i ims dI)) j). transitivity (vget (ic_col (nth i ims dI)) j mod p); [symmetry; apply cong_mod|rewrite T; reflexivity].
      + contradiction.
      + exists i'. split; [lia|auto].
      + exfalso. apply HbirA in T. pose proof (Hborn i ltac:(lia) ltac:(lia)). lia. }
  assert (Main : forall j, (j < m)%nat ->
    (pv ims2 (s + j) <> -1 -> forall i, cong p (fT ims2 (s + j) i) (funit (s + j) i)) /\
    (pv ims2 (s + j) = -1 -> (forall i, (i < s)%nat -> cong p (fT ims2 (s + j) i) 0) /\
       NB (ic_death (nth (s + j) ims2 dI)) (mv F s ims2 (s + j)) /\
       (alB rad j = true -> exists i, (i < s)%nat /\ pv ims2 i = Z.of_nat j))).
  { intros j. induction j as [j IH] using lt_wf_ind. intros Hj. destruct (HUj j Hj) as (Hb & Hd & Hcol).
    pose proof (HbarA (s + j)%nat ltac:(lia)) as Hbd.
    destruct (hit s ims dyA (s + j)) eqn:Eh.
    - (* its bar ends in the module *)
      assert (Eh' := Eh). apply Hhit in Eh'; [|lia]. destruct Eh' as (_ & Hdr & Hm1).
      assert (Hu := u_unit _ _ HV j Hj Hm1).
      destruct (Ho (s + j)%nat ltac:(lia)) as [E|[T _]].
      + rewrite (Hkn (s + j)%nat ltac:(lia)), Eh in E.
        assert (ET : forall i, fT ims2 (s + j) i = fT ims (s + j) i) by (intros i; unfold fT; rewrite E; reflexivity).
        assert (Ep : pv ims2 (s + j) = -1) by (unfold pv; rewrite E; reflexivity).
        split; [intros C; contradiction|]. intros _. split; [|split].
        * intros i Hi. rewrite ET, Hu. unfold funit. destruct (Nat.eqb_spec i (s + j)); [lia|]. reflexivity.
        * rewrite E. cbn [set_piv set_death ic_death]. exists fzero. split; [intros i Hi C; elim C; reflexivity|].
          intros i Hi. apply alive_iff in Hi. unfold mv.
          rewrite (lc_cong p n _ (funit (s + j)) (fF F) (fF F) i); [| |reflexivity].
          -- rewrite lc_unit by lia. rewrite Hcol by tauto. unfold funit. destruct (Nat.eqb_spec i j) as [->|]; [lia|].
             unfold lc. rewrite Zsum_0; [reflexivity|]. intros; unfold fzero; ring.
          -- intros k Hk. unfold cut. destruct (Nat.ltb_spec k s).
             ++ unfold funit. destruct (Nat.eqb_spec k (s + j)); [lia|]. reflexivity.
             ++ rewrite ET. apply Hu.
        * intros Ha. apply alive_iff in Ha. lia.
      + exfalso. rewrite (Hkn (s + j)%nat ltac:(lia)), Eh in T. unfold touched in T. cbn [set_piv ic_piv] in T.
        destruct T as [[T _]|[[T _]|[[T _]|T]]]; try lia. apply HbirA in T. lia.
    - assert (Ek : nth (s + j) (map (rel_kill s dyA rad) (enum ims)) dI = nth (s + j) ims dI) by (rewrite (Hkn (s + j)%nat ltac:(lia)), Eh; reflexivity).
      assert (Hnh : pv ims (s + j) <> -1 -> dA (s + j)%nat <> rad).
      { intros H1 H2. assert (X : hit s ims dyA (s + j) = true) by (apply Hhit; [lia|]; repeat split; auto; lia). congruence. }
      pose proof (Ho (s + j)%nat ltac:(lia)) as Hout. rewrite Ek in Hout.
      destruct Hout as [E|[T (r & t & q & Ep & Q1 & Q2)]].
      + (* untouched *)
        assert (ET : forall i, fT ims2 (s + j) i = fT ims (s + j) i) by (intros i; unfold fT; rewrite E; reflexivity).
        assert (Epv : pv ims2 (s + j) = pv ims (s + j)) by (unfold pv; rewrite E; reflexivity).
        rewrite Epv. split.
        * intros H1 i. rewrite ET. apply (u_unit _ _ HV); auto.
        * intros H1. split; [intros i Hi; rewrite ET; apply (u_low _ _ HV); auto|]. split.
          -- rewrite E. apply (NB_cong p F s bA bB dB _ (mv F s ims (s + j))); [|apply (u_dead _ _ HV); auto].
             intros i. unfold mv. apply lc_cong; [|reflexivity]. intros k Hk. unfold cut. rewrite ET. reflexivity.
          -- intros Ha. assert (Ha' := Ha). apply alive_iff in Ha'.
             destruct (u_piv _ _ HV j Hj H1) as (i & Hi & Hpi).
             { apply alive_iff. pose proof (Hborn (s + j)%nat ltac:(lia) ltac:(lia)). lia. }
             apply (Hkeep i j); auto.
      + (* reduced *)
        unfold touched in T. fold (pv ims (s + j)) in T.
        assert (Hne : pv ims (s + j) <> -1).
        { intros H1. destruct T as [[T _]|[[T _]|[[T _]|T]]]; try lia. apply HbirA in T. pose proof (Hborn (s + j)%nat ltac:(lia) ltac:(lia)). lia. }
        assert (Hu := u_unit _ _ HV j Hj Hne).
        assert (Huc := unit_col j ims done rho HI Hj Hu).
        assert (Haj : alB rad j = true).
        { apply alive_iff. split; auto. destruct (N3 (s + j)%nat ltac:(lia)) as [X1 X2]. rewrite <- Hb, <- Hd. specialize (Hnh Hne).
          destruct (ri_range _ _ _ _ _ _ _ _ _ _ HI (s + j)%nat ltac:(lia)) as [R|[R|R]]; [|contradiction|].
          - destruct T as [[T _]|[[T _]|[[T _]|T]]]; try lia. apply HbirA in T. lia.
          - pose proof (Hborn (s + j)%nat ltac:(lia) ltac:(lia)) as Y.
            pose proof (ri_piv _ _ _ _ _ _ _ _ _ _ HI (s + j)%nat ltac:(lia) R) as P.
            assert (dA (s + j)%nat > rho); [|lia].
            destruct P as [P _]. apply on_nz in P. destruct P as [P1 P2].
            assert (P1' := P1). apply alive_iff in P1'. rewrite (Huc _ (proj1 P1')) in P2. unfold funit in P2.
            destruct (Nat.eqb_spec (Z.to_nat (pv ims (s + j))) j) as [Eq|]; [|elim P2; reflexivity]. rewrite Eq in P1'. lia. }
        assert (Hpivj : is_piv p (on (mem actB) (vget (ic_col (nth (s + j) ims dI)))) j).
        { apply (is_piv_veq p (on (alB rad) (fC ims (s + j)))).
          - intros i. unfold on. rewrite HactB'. reflexivity.
          - apply unit_is_piv; auto. }
        assert (Hnot0 : pcr_fuel actB p <> 0%nat) by (unfold pcr_fuel; lia).
        destruct (existsb (fun c : vec * vec * Z => snd c =? Z.of_nat j) (pcols (firstn (s + j) ims2))) eqn:Ex.
        2:{ (* the pivot is free *)
          rewrite (pcr_keep p m actB (pcols (firstn (s + j) ims2)) j) in Ep; auto.
          2:{ intros c Hc Eq. assert (Y : existsb (fun c : vec * vec * Z => snd c =? Z.of_nat j) (pcols (firstn (s + j) ims2)) = true); [|congruence].
              apply existsb_exists. exists c. split; auto. apply Z.eqb_eq. auto. }
          injection Ep as <- <- <-. specialize (Q1 ltac:(lia)). split.
          - intros _ i. unfold fT. rewrite Q1. cbn [ic_T]. apply Hu.
          - intros C. unfold pv in C. rewrite Q1 in C. cbn [ic_piv] in C. lia. }
        (* the pivot is taken by an earlier column *)
        apply existsb_exists in Ex. destruct Ex as (x & Hx & Exq). apply Z.eqb_eq in Exq.
        assert (Hfound : exists i, (i < s + j)%nat /\ pv ims2 i = Z.of_nat j).
        { unfold pcols in Hx. apply in_map_iff in Hx. destruct Hx as (y & <- & Hy). apply In_nth with (d := dI) in Hy.
          destruct Hy as (k & Hk & <-). rewrite firstn_length in Hk. rewrite nth_firstn in Exq by lia. exists k. split; [lia|]. exact Exq. }
        destruct Hfound as (i0 & Hi0 & Hpi0).
        assert (Hmj : forall i, In i actB -> (j < i)%nat -> cong p (vget r i) 0).
        { apply (pcr_above p m actB (pcols (firstn (s + j) ims2)) j Hp HactB Hactlt (Hprevok (s + j)%nat ltac:(lia)) _ _ _ _ _ _ (proj1 (ri_wf _ _ _ _ _ _ _ _ _ _ HI (s + j)%nat ltac:(lia))) ) with (2 := Ep). intros i Hi Hji. rewrite (Huc i (Hactlt i Hi)). unfold funit. destruct (Nat.eqb_spec i j); [lia|]. reflexivity. }
        assert (Hq1 : q = -1).
        { destruct (Z.eq_dec q (-1)) as [|Hq]; auto. exfalso. specialize (Q1 Hq).
          assert (Epv : pv ims2 (s + j) = q) by (unfold pv; rewrite Q1; reflexivity).
          assert (Hq0 : 0 <= q) by (destruct (pcr_sign _ _ _ _ _ _ _ _ _ Ep); [contradiction|auto]).
          pose proof (ri_piv _ _ _ _ _ _ _ _ _ _ HI2 (s + j)%nat ltac:(lia) ltac:(lia)) as P. rewrite Epv in P.
          destruct P as [P1 P2]. apply on_nz in P1. destruct P1 as [P0 P1].
          assert (EC : fC ims2 (s + j) (Z.to_nat q) = vget r (Z.to_nat q)) by (unfold fC; rewrite Q1; reflexivity). rewrite EC in P1.
          assert (P0' := P0). apply alive_iff in P0'. set (l := Z.to_nat q) in *. assert (Eql : q = Z.of_nat l) by (unfold l; lia).
          assert (Hlj : (l <= j)%nat).
          { destruct (le_lt_dec l j) as [|C]; auto. elim P1. apply Hmj; auto. apply memn_In. change (mem actB l = true). rewrite HactB'. auto. }
          destruct (Nat.eq_dec l j) as [Elj|Nlj].
          { apply (ri_dist _ _ _ _ _ _ _ _ _ _ HI2 i0 (s + j)%nat); try lia. }
          destruct (IH l ltac:(lia) ltac:(lia)) as [IH1 IH2].
          destruct (HUj l ltac:(lia)) as (Hbl & Hdl & _).
          destruct (ri_range _ _ _ _ _ _ _ _ _ _ HI2 (s + l)%nat ltac:(lia)) as [R|[R|R]].
          - apply (ri_unborn _ _ _ _ _ _ _ _ _ _ HI2 (s + l)%nat ltac:(lia)) in R. lia.
          - destruct (IH2 R) as (_ & _ & X). destruct (X P0) as (i & Hi & Hpi).
            apply (ri_dist _ _ _ _ _ _ _ _ _ _ HI2 i (s + j)%nat); try lia.
          - assert (Rp := ri_piv _ _ _ _ _ _ _ _ _ _ HI2 (s + l)%nat ltac:(lia) R).
            assert (X := unit_is_piv l rad (fC ims2 (s + l)) ltac:(lia) P0 (unit_col l ims2 _ _ HI2 ltac:(lia) (IH1 ltac:(lia)))).
            pose proof (is_piv_unique p _ _ _ X Rp) as Y.
            apply (ri_dist _ _ _ _ _ _ _ _ _ _ HI2 (s + l)%nat (s + j)%nat); try lia. }
        subst q. destruct (Q2 eq_refl) as (R1 & R2 & R3). clear Q1 Q2.
        split; [intros C; elim C; exact R1|]. intros _.
        destruct (ri_wf _ _ _ _ _ _ _ _ _ _ HI (s + j)%nat ltac:(lia)) as (W1 & W2 & W3 & W4).
        destruct (pcr_spec p m actB Hp HactB Hactlt (pcols (firstn (s + j) ims2)) n (Hprevok (s + j)%nat ltac:(lia)) (HpT (s + j)%nat ltac:(lia)) (pcr_fuel actB p)
          (ic_col (nth (s + j) ims dI)) (ic_T (nth (s + j) ims dI)) W1 W2 W3 W4 (measure_fuel p m actB Hp HactB Hactlt n _))
          as (r' & t' & q' & b & Ep' & L1 & L2 & _ & _ & Hbq & C1 & C2 & Hfin).
        rewrite Ep in Ep'. injection Ep' as <- <- <-.
        assert (Hz : veq p (on (mem actB) (vget r)) fzero) by (destruct Hfin as [[_ Z0]|(x0 & X & _)]; [exact Z0|lia]).
        assert (Hpl : length (pcols (firstn (s + j) ims2)) = (s + j)%nat) by (unfold pcols; rewrite map_length, firstn_length; lia).
        rewrite Hpl in C1, C2, Hbq.
        assert (Epr : forall k, (k < s + j)%nat -> nth k (pcols (firstn (s + j) ims2)) ([], [], 0) = (ic_col (nth k ims2 dI), ic_T (nth k ims2 dI), ic_piv (nth k ims2 dI))).
        { intros k Hk. unfold pcols. rewrite (nth_map _ _ k dI) by (rewrite firstn_length; lia). rewrite nth_firstn by lia. reflexivity. }
        assert (ET : forall i, (i < n)%nat -> fT ims2 (s + j) i = cut s (vget t) i).
        { intros i Hi. unfold fT. rewrite R3. rewrite (vget_nth_map _ 0%nat) by (rewrite seq_length; lia). rewrite seq_nth by lia. reflexivity. }
        split; [|split].
        * intros i Hi. rewrite ET by lia. unfold cut. destruct (Nat.ltb_spec i s); [reflexivity|lia].
        * rewrite R2.
          exists (fun i => if Nat.ltb i s then - vget t i else 0). split.
          -- intros i Hi Hx0. destruct (Nat.ltb_spec i s) as [Hlt|]; [|elim Hx0; reflexivity]. split; auto.
             assert (Hti : ~ cong p (vget t i) 0) by (intros C; apply Hx0; rewrite C; reflexivity).
             rewrite C2 in Hti. change (vget (ic_T (nth (s + j) ims dI)) i) with (fT ims (s + j) i) in Hti. rewrite Hu in Hti.
             unfold funit in Hti. destruct (Nat.eqb_spec i (s + j)); [lia|].
             destruct (Z_le_gt_dec (bA i) rad) as [|Hgt]; auto. elim Hti. rewrite Z.add_0_l. apply lc_cong0. intros k Hk.
             destruct (Z.eq_dec (b k) 0) as [->|Hbk]; [apply cong_eq; ring|].
             specialize (Hbq k Hk Hbk). unfold pq in Hbq. rewrite (Epr k Hk) in Hbq. cbn [snd] in Hbq. fold (pv ims2 k) in Hbq.
             unfold pt. rewrite (Epr k Hk). cbn [fst snd]. fold (fT ims2 k i).
             destruct (cong_dec p (fT ims2 k i) 0) as [E0|E0]; [change (vget (ic_T (nth k ims2 dI)) i) with (fT ims2 k i); rewrite E0; apply cong_eq; ring|].
             destruct (ri_supp _ _ _ _ _ _ _ _ _ _ HI2 k i ltac:(lia) E0) as [_ [->|X]]; [|lia].
             assert (Y : pv ims2 k = -2) by (apply (ri_unborn _ _ _ _ _ _ _ _ _ _ HI2 k ltac:(lia)); lia). lia.
          -- intros i Hi.
             assert (Hr0 : cong p (lc n (vget t) (fF F) i) 0).
             { transitivity (vget r i).
               2:{ specialize (Hz i). unfold on in Hz. rewrite HactB', Hi in Hz. exact Hz. }
               symmetry. rewrite C1. change (vget (ic_col (nth (s + j) ims dI)) i) with (fC ims (s + j) i).
               rewrite (ri_FT _ _ _ _ _ _ _ _ _ _ HI (s + j)%nat ltac:(lia) i).
               rewrite (lc_cong p n (vget t) (fun x => fT ims (s + j) x + lc (s + j) b (fT ims2) x) (fF F) (fF F) i); [| |reflexivity].
               - rewrite lc_add, lc_lc. apply cong_add; [reflexivity|]. apply lc_cong; [reflexivity|]. intros k Hk. unfold pr. rewrite (Epr k Hk). cbn [fst].
                 change (vget (ic_col (nth k ims2 dI)) i) with (fC ims2 k i). apply (ri_FT _ _ _ _ _ _ _ _ _ _ HI2 k ltac:(lia)).
               - intros k Hk. rewrite C2. change (vget (ic_T (nth (s + j) ims dI)) k) with (fT ims (s + j) k). apply cong_add; [reflexivity|].
                 apply lc_cong; [reflexivity|]. intros l Hl. unfold pt. rewrite (Epr l Hl). reflexivity. }
             unfold mv. rewrite <- (Z.add_0_r (lc n _ (fF F) i)). rewrite <- (Z.sub_diag (lc n (fun l => if Nat.ltb l s then vget t l else 0) (fF F) i)).
             transitivity (lc n (vget t) (fF F) i - lc n (fun l => if Nat.ltb l s then vget t l else 0) (fF F) i).
             ++ apply cong_eq. unfold lc. rewrite <- !Zsum_sub. 
                assert (X : Zsum n (fun k => vget t k * fF F k i - (if Nat.ltb k s then vget t k else 0) * fF F k i) = Zsum n (fun k => cut s (fT ims2 (s + j)) k * fF F k i)).
                { apply Zsum_ext. intros k Hk. unfold cut at 1. rewrite ET by auto. unfold cut. destruct (Nat.ltb_spec k s); ring. }
                rewrite X. rewrite <- Zsum_add. apply Zsum_ext. intros; ring.
             ++ rewrite Hr0. apply cong_eq. unfold lc. rewrite <- (Zsum_opp n). apply Zsum_ext. intros k Hk. destruct (Nat.ltb_spec k s); ring.
        * intros _. destruct (le_lt_dec s i0) as [Hsi|Hsi]; [|exists i0; auto]. exfalso.
          set (l := (i0 - s)%nat). assert (El : i0 = (s + l)%nat) by (unfold l; lia). rewrite El in *. clearbody l.
          destruct (IH l ltac:(lia) ltac:(lia)) as [IH1 _]. specialize (IH1 ltac:(lia)).
          pose proof (ri_piv _ _ _ _ _ _ _ _ _ _ HI2 (s + l)%nat ltac:(lia) ltac:(lia)) as [P _]. rewrite Hpi0, Nat2Z.id in P. apply on_nz in P.
          destruct P as [_ P]. apply P. rewrite (unit_col l ims2 _ _ HI2 ltac:(lia) IH1 j Hj). unfold funit. destruct (Nat.eqb_spec j l); [lia|]. reflexivity. }
  constructor; intros j Hj H; destruct (Main j Hj) as [M1 M2]; auto; apply M2; auto.
Qed.
End Step.
End UInv.
