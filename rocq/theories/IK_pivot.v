(** * Proofs about [pivot_check_reduce] *)
From Verif Require Import Base ListX SortX Lin Gauss_model Gauss_arith Gauss_col Spec_Gauss IK_model.
From Coq Require Import Znumtheory Sorting.Sorted.
Local Open Scope Z_scope.

(** Restriction of a vector to the indices satisfying [P]. *)
Definition on (P : nat -> bool) (v : fvec) : fvec := fun i => if P i then v i else 0.
Definition mem (l : list nat) (i : nat) : bool := memn i l.
Definition nonneg (v : vec) : Prop := forall i, 0 <= vget v i.

Lemma on_lin p P n c (V : nat -> fvec) : veq p (on P (lc n c V)) (lc n c (fun k => on P (V k))).
Proof.
  intros i. unfold on, lc. destruct (P i); [reflexivity|]. rewrite Zsum_0; [reflexivity|]. intros; ring.
Qed.

Lemma on_veq p P u v : veq p u v -> veq p (on P u) (on P v).
Proof. intros H i. unfold on. destruct (P i); [apply H|reflexivity]. Qed.

Lemma sorted_nth_lt l a b : StronglySorted lt l -> (a < length l)%nat -> (b < length l)%nat ->
  (nth a l 0 < nth b l 0)%nat -> (a < b)%nat.
Proof.
  intros Hs Ha Hb H. destruct (lt_eq_lt_dec a b) as [[|E]|E]; auto; [subst; lia|].
  pose proof (sorted_nth lt l 0%nat Hs b a ltac:(lia)). lia.
Qed.

Section Pcr.
Variables (p : Z) (m : nat) (act : list nat).
Hypothesis Hp : prime p.
Hypothesis Hact : StronglySorted lt act.
Hypothesis Hlt : forall i, In i act -> (i < m)%nat.

Local Lemma p2 : 2 <= p.
Proof. apply prime_ge_2; auto. Qed.

Definition restr (r : vec) : vec := map (fun i => vget r i mod p) act.

Lemma restr_get r k : (k < length act)%nat -> vget (restr r) k = vget r (nth k act 0%nat) mod p.
Proof. intros H. unfold restr. apply (vget_nth_map (fun i => vget r i mod p) 0%nat). auto. Qed.

Lemma m0 x : x mod p = 0 <-> cong p x 0.
Proof.
  pose proof p2. assert (E : p <> 0) by lia. rewrite (cong_iff_mod p x 0 E). rewrite Z.mod_0_l by lia. reflexivity.
Qed.

Lemma restr_zero r : index_pivot (restr r) = -1 <-> veq p (on (mem act) (vget r)) fzero.
Proof.
  rewrite index_pivot_m1. split; intros H.
  - intros i. unfold on, mem. destruct (memn i act) eqn:E; [|reflexivity]. apply memn_In in E.
    apply In_nth with (d := 0%nat) in E. destruct E as (k & Hk & <-). apply m0. rewrite <- (restr_get r k Hk). apply H.
  - intros k. destruct (lt_dec k (length act)) as [Hk|Hk].
    + rewrite restr_get by auto. apply m0. specialize (H (nth k act 0%nat)). unfold on, mem in H.
      replace (memn (nth k act 0%nat) act) with true in H; auto. symmetry. apply memn_In. apply nth_In; auto.
    + apply vget_out. unfold restr. rewrite map_length. lia.
Qed.

Lemma restr_piv r k : last_nonzero (restr r) k -> (k < length act)%nat /\ is_piv p (on (mem act) (vget r)) (nth k act 0%nat).
Proof.
  intros (Hk & Hn & Hz). unfold restr in Hk. rewrite map_length in Hk. split; auto. split.
  - unfold on, mem. replace (memn (nth k act 0%nat) act) with true by (symmetry; apply memn_In, nth_In; auto).
    rewrite restr_get in Hn by auto. intros C. apply Hn. apply m0. auto.
  - intros j Hj. unfold on, mem. destruct (memn j act) eqn:E; [|reflexivity]. apply memn_In in E.
    apply In_nth with (d := 0%nat) in E. destruct E as (l & Hl & <-).
    assert (k < l)%nat by (apply (sorted_nth_lt act); auto).
    apply m0. rewrite <- (restr_get r l Hl). apply Hz. lia.
Qed.

Definition pv_ok (c : vec * vec * Z) : Prop :=
  let '(rk, tk, q) := c in
  length rk = m /\ nonneg rk /\ nonneg tk /\
  (0 <= q -> is_piv p (on (mem act) (vget rk)) (Z.to_nat q)).

Variables (prev : list (vec * vec * Z)) (lt_ : nat).
Hypothesis Hprev : Forall pv_ok prev.
Hypothesis Hlen : Forall (fun c : vec * vec * Z => length (snd (fst c)) = lt_) prev.

Definition pr (k : nat) : fvec := vget (fst (fst (nth k prev ([], [], 0)))).
Definition pt (k : nat) : fvec := vget (snd (fst (nth k prev ([], [], 0)))).
Definition pq (k : nat) : Z := snd (nth k prev ([], [], 0)).

Definition measure (r : vec) : Z :=
  let k := index_pivot (restr r) in
  if k =? -1 then 0 else k * p + (p - vget (restr r) (Z.to_nat k)).

Lemma add_nonneg u v : length u = length v -> nonneg (add_arrays_mod_c u v p).
Proof. intros H i. rewrite vget_add_arrays by auto. pose proof p2. apply Z.mod_pos_bound. lia. Qed.

Lemma pcr_spec : forall fuel r t, length r = m -> length t = lt_ -> nonneg r -> nonneg t ->
  measure r < Z.of_nat fuel ->
  exists r' t' piv c, pivot_check_reduce fuel act prev r t p = Ok (r', t', piv) /\
    length r' = m /\ length t' = lt_ /\ nonneg r' /\ nonneg t' /\
    (forall k, (k < length prev)%nat -> c k <> 0 -> 0 <= pq k) /\
    (forall i, cong p (vget r' i) (vget r i + lc (length prev) c pr i)) /\
    (forall i, cong p (vget t' i) (vget t i + lc (length prev) c pt i)) /\
    (piv = -1 /\ veq p (on (mem act) (vget r')) fzero \/
     exists q, piv = Z.of_nat q /\ is_piv p (on (mem act) (vget r')) q /\ In q act /\
       forall k, (k < length prev)%nat -> pq k <> piv).
Proof.
  pose proof p2 as H2.
  induction fuel as [|f IH]; intros r t Hr Ht Hnr Hnt Hf.
  { exfalso. unfold measure in Hf. destruct (index_pivot_cases (restr r)) as [[_ E]|(k & Hk & E)]; rewrite E in Hf.
    - cbn in Hf. lia.
    - destruct (Z.eqb_spec (Z.of_nat k) (-1)); [lia|]. rewrite Nat2Z.id in Hf.
      destruct (restr_piv r k Hk) as [Hk' _]. rewrite restr_get in Hf by auto.
      pose proof (Z.mod_pos_bound (vget r (nth k act 0%nat)) p ltac:(lia)). nia. }
  cbn [pivot_check_reduce]. fold (restr r).
  destruct (index_pivot_cases (restr r)) as [[Hz E]|(k & Hk & E)].
  { rewrite E. cbn [Z.eqb Pos.eqb]. exists r, t, (-1), (fun _ => 0). repeat split; auto.
    - intros k _ C. elim C. reflexivity.
    - intros i. unfold lc. rewrite Zsum_0 by (intros; ring). apply cong_eq; ring.
    - intros i. unfold lc. rewrite Zsum_0 by (intros; ring). apply cong_eq; ring.
    - left. split; auto. apply restr_zero; auto. }
  assert (Ek : Z.eqb (index_pivot (restr r)) (-1) = false) by (apply Z.eqb_neq; lia).
  rewrite Ek. rewrite E, Nat2Z.id. set (q := nth k act 0%nat).
  destruct (restr_piv r k Hk) as [Hkl Hpiv]. fold q in Hpiv.
  assert (Hq : In q act) by (apply nth_In; auto).
  destruct (find (fun c => snd c =? Z.of_nat q) prev) as [[[rk tk] z]|] eqn:Ef.
  2:{ exists r, t, (Z.of_nat q), (fun _ => 0). repeat split; auto.
    - intros l _ C. elim C. reflexivity.
    - intros i. unfold lc. rewrite Zsum_0 by (intros; ring). apply cong_eq; ring.
    - intros i. unfold lc. rewrite Zsum_0 by (intros; ring). apply cong_eq; ring.
    - right. exists q. split; auto. split; [exact Hpiv|]. split; auto. intros l Hl C.
      assert (X := find_none _ _ Ef (nth l prev ([], [], 0)) (nth_In _ _ Hl)). cbv beta in X.
      apply Z.eqb_neq in X. exact (X C). }
  apply find_some in Ef. destruct Ef as [Hin Ez]. cbn [snd] in Ez. apply Z.eqb_eq in Ez. subst z.
  pose proof (proj1 (Forall_forall _ _) Hprev _ Hin) as (Hlk & Hnk & Hntk & Hpk).
  pose proof (proj1 (Forall_forall _ _) Hlen _ Hin) as Hltk. cbn [fst snd] in Hltk.
  specialize (Hpk ltac:(lia)). rewrite Nat2Z.id in Hpk.
  assert (Hmq : mem act q = true) by (apply memn_In; auto).
  assert (Hne : ~ cong p (vget rk q) 0). { destruct Hpk as [Hpk _]. unfold on in Hpk. rewrite Hmq in Hpk. auto. }
  destruct (inv_mod_p_prime (vget rk q) p Hp) as (inv & Ei & Hib & Hie).
  { specialize (Hnk q). assert (vget rk q <> 0); [|lia]. intros C. apply Hne. rewrite C. reflexivity. }
  { rewrite <- cong0_divide. auto. }
  rewrite Ei. cbn [bind].
  assert (Hl1 : length (vscale inv rk) = length r) by (unfold vscale; rewrite map_length; congruence).
  assert (Hl2 : length (vscale inv tk) = length t) by (unfold vscale; rewrite map_length; congruence).
  set (r1 := add_arrays_mod_c (vscale inv rk) r p). set (t1 := add_arrays_mod_c (vscale inv tk) t p).
  assert (G1 : forall i, cong p (vget r1 i) (vget r i + inv * vget rk i)).
  { intros i. unfold r1. rewrite vget_add_arrays by auto. rewrite cong_mod, vget_vscale. apply cong_eq; ring. }
  assert (G2 : forall i, cong p (vget t1 i) (vget t i + inv * vget tk i)).
  { intros i. unfold t1. rewrite vget_add_arrays by auto. rewrite cong_mod, vget_vscale. apply cong_eq; ring. }
  assert (Hinv1 : cong p (inv * vget rk q) 1).
  { rewrite <- (cong_mod p (inv * vget rk q)), Hie. reflexivity. }
  destruct (IH r1 t1) as (r' & t' & piv & c & E1 & L1 & L2 & N1 & N2 & Hc & C1 & C2 & Hfin).
  { unfold r1. rewrite add_arrays_length; congruence. }
  { unfold t1. rewrite add_arrays_length; congruence. }
  { apply add_nonneg; auto. }
  { apply add_nonneg; auto. }
  { (* the measure decreases *)
    assert (M0 : measure r = Z.of_nat k * p + (p - vget r q mod p)).
    { unfold measure. rewrite Ek, E, Nat2Z.id, restr_get by auto. reflexivity. }
    rewrite M0 in Hf. pose proof (Z.mod_pos_bound (vget r q) p ltac:(lia)) as Hb.
    assert (Hrq : vget r q mod p <> 0).
    { intros C. apply m0 in C. destruct Hpiv as [Hpiv _]. unfold on in Hpiv. rewrite Hmq in Hpiv. auto. }
    assert (Hz1 : forall l, (k < l)%nat -> vget (restr r1) l = 0).
    { intros l Hl. destruct (lt_dec l (length act)) as [Hl'|Hl'].
      - rewrite restr_get by auto. apply m0. rewrite G1.
        assert (Hgt : (q < nth l act 0)%nat) by (apply (sorted_nth lt act 0%nat Hact k l); lia).
        assert (Hml : mem act (nth l act 0%nat) = true) by (apply memn_In, nth_In; auto).
        destruct Hpiv as [_ Hpiv]. destruct Hpk as [_ Hpk].
        specialize (Hpiv _ Hgt). specialize (Hpk _ Hgt). unfold on in Hpiv, Hpk. rewrite Hml in Hpiv, Hpk.
        rewrite Hpiv, Hpk. apply cong_eq; ring.
      - apply vget_out. unfold restr. rewrite map_length. lia. }
    assert (Hq1 : cong p (vget r1 q) (vget r q mod p + 1)).
    { rewrite G1, Hinv1, cong_mod. reflexivity. }
    unfold measure. destruct (index_pivot_cases (restr r1)) as [[_ E']|(k' & Hk' & E')].
    - rewrite E'. cbn [Z.eqb Pos.eqb]. nia.
    - destruct (Z.eqb_spec (index_pivot (restr r1)) (-1)); [lia|]. rewrite E', Nat2Z.id.
      destruct (restr_piv r1 k' Hk') as [Hkl' _]. rewrite restr_get by auto.
      assert (k' <= k)%nat.
      { destruct (le_lt_dec k' k) as [|Hlt']; auto. destruct Hk' as (_ & Hk' & _). elim Hk'. apply Hz1; auto. }
      destruct (Nat.eq_dec k' k) as [->|Hn].
      + fold q. destruct Hk' as (_ & Hk' & _). rewrite restr_get in Hk' by auto. fold q in Hk'.
        assert (vget r1 q mod p = vget r q mod p + 1).
        { apply (cong_small p).
          - apply Z.mod_pos_bound. lia.
          - split; [lia|]. destruct (Z.eq_dec (vget r q mod p + 1) p) as [Eq|]; [|lia].
            exfalso. apply Hk'. apply m0. rewrite Hq1, Eq. exists 1. ring.
          - rewrite cong_mod. auto. }
        lia.
      + pose proof (Z.mod_pos_bound (vget r1 (nth k' act 0%nat)) p ltac:(lia)).
        assert (vget r1 (nth k' act 0%nat) mod p <> 0).
        { destruct Hk' as (_ & Hk' & _). rewrite restr_get in Hk' by auto. auto. }
        nia. }
  (* combine the coefficients *)
  apply In_nth with (d := ([], [], 0)) in Hin. destruct Hin as (l0 & Hl0 & El0).
  exists r', t', piv, (fun l => c l + (if Nat.eqb l l0 then inv else 0)). repeat split; auto.
  - intros l Hl C. destruct (Nat.eqb_spec l l0) as [->|].
    + unfold pq. rewrite El0. cbn [snd]. lia.
    + apply Hc; auto. lia.
  - intros i. rewrite C1, G1. rewrite (lc_add (length prev) c). rewrite <- !Z.add_assoc.
    assert (X : lc (length prev) (fun l => if Nat.eqb l l0 then inv else 0) pr i = inv * vget rk i).
    { unfold lc. rewrite (Zsum_single (length prev) l0); auto.
      - rewrite Nat.eqb_refl. unfold pr. rewrite El0. reflexivity.
      - intros l Hl Hn. apply Nat.eqb_neq in Hn. rewrite Hn. ring. }
    rewrite X. apply cong_eq; ring.
  - intros i. rewrite C2, G2. rewrite (lc_add (length prev) c). rewrite <- !Z.add_assoc.
    assert (X : lc (length prev) (fun l => if Nat.eqb l l0 then inv else 0) pt i = inv * vget tk i).
    { unfold lc. rewrite (Zsum_single (length prev) l0); auto.
      - rewrite Nat.eqb_refl. unfold pt. rewrite El0. reflexivity.
      - intros l Hl Hn. apply Nat.eqb_neq in Hn. rewrite Hn. ring. }
    rewrite X. apply cong_eq; ring.
Qed.

Lemma measure_fuel r : measure r < Z.of_nat (pcr_fuel act p).
Proof.
  pose proof p2 as H2. unfold pcr_fuel, measure. rewrite Nat2Z.inj_succ, Nat2Z.inj_mul, Z2Nat.id by lia.
  destruct (index_pivot_cases (restr r)) as [[_ E]|(k & Hk & E)]; rewrite E.
  - cbn [Z.eqb Pos.eqb]. nia.
  - destruct (Z.eqb_spec (Z.of_nat k) (-1)); [lia|]. rewrite Nat2Z.id.
    destruct (restr_piv r k Hk) as [Hk' _]. rewrite restr_get by auto.
    pose proof (Z.mod_pos_bound (vget r (nth k act 0%nat)) p ltac:(lia)). nia.
Qed.
End Pcr.
