(** * On the second page, the classes of row 0 are fewer than the classes of the first page *)
From Verif Require Import Base ListX SortX Lin Gauss_model Gauss_arith Basis_model PH_model PH_lin PH_props Simp_model Spec_Simp Simp_lists Simp_diff Simp_props
  Spec_PH Spec_Rips Rips_bd Rips_chain Rips_props LC_model Spec_LC LC_props SS_model Spec_SS SS_inv SS_page SS_cech SS_lift SS_zig SS_first SS_fplift SS_double
  IK_lin IK_abs Spec_IK Spec_Bars Bars MPH_bars Bars_complex Bars_weak Bars_indep Spec_E2 SS_rows SS_glue SS_zero Spec_Cech SS_e2 Nerve_bd Cover_model HP_model HP_row HP_gens.
From Coq Require Import Sorted Permutation Znumtheory.
Local Open Scope Z_scope.

Section Strict.
Variables (argsort : list Z -> list nat) (rnd : Z -> Z) (Dist : list (list Z)) (max_r max_dim p : Z)
  (IN : list (list (list nat))) (n0 : nat) (nerve : list (list simplex)).
Hypothesis HI : mv_input argsort Dist max_r max_dim p IN n0 nerve.
Variable S : ss.
Hypothesis PO : page_ok argsort rnd Dist max_r max_dim p IN n0 nerve S.
Hypothesis Htop : level n0 nerve (length nerve) = [].
Let m := Z.to_nat max_dim.
Let Hp := mv_prime _ _ _ _ _ _ _ _ HI.
Let N := length Dist.
Let p_pos : 0 < p. Proof. destruct Hp. lia. Qed.
Let Hm : (0 < m)%nat. Proof. pose proof (mv_max_dim _ _ _ _ _ _ _ _ HI). unfold m. lia. Qed.
Local Notation lev n := (level n0 nerve n).
Local Notation FB := (fam_bounds p Dist IN n0 nerve S).
Local Notation FZ := (fam_cycle p Dist IN n0 nerve S).
Local Notation PZ := (page2_cycle p Dist IN n0 nerve S).
Local Notation PB := (page2_bounds p Dist IN n0 nerve S).
Local Notation rb := (row_bars n0 nerve S).
Local Notation cmb := (fam_comb n0 nerve S).
Local Notation push := (pushf IN n0 nerve S 0).

(** ** The sum of the coefficients of a chain of points *)
Definition eps (c : list nat -> Z) : Z := Zsum N (fun v => c [v]).

Lemma eps_bd c : eps c = simplicial_bd N c [].
Proof. unfold eps, simplicial_bd. apply Zsum_ext. intros v _. cbn [memn existsb filter length Z.of_nat insert_vertex app]. change ((-1) ^ 0) with 1. rewrite Z.mul_1_l. reflexivity. Qed.

Lemma eps_bounds K c : s_bounds p N K 0 c -> cong p (eps c) 0.
Proof.
  intros (_ & w & _ & Hw). transitivity (eps (simplicial_bd N w)).
  - apply Zsum_cong. intros v _. apply (cong_mod_iff p _ _ p_pos). symmetry. apply Hw; [repeat constructor|reflexivity].
  - rewrite eps_bd, bd_bd by constructor. reflexivity.
Qed.

(** ** A functional on the families over dimension [n + 1] of the nerve *)
Definition psi (n t : nat) (v : nat * nat -> Z) : Z :=
  Zsum (length (lev (Datatypes.S n))) (fun s => coeff (nth t (lev n) []) (nth s (lev (Datatypes.S n)) []) * eps (fun x => push (Datatypes.S n) v (s, x))).

Lemma psi_lin n t M (c : nat -> Z) b v : (forall x, cong p (v x) (Zsum M (fun k => c k * b k x))) -> cong p (psi n t v) (Zsum M (fun k => c k * psi n t (b k))).
Proof.
  intros Hv. unfold psi. transitivity (Zsum (length (lev (Datatypes.S n))) (fun s => Zsum M (fun k => c k * (coeff (nth t (lev n) []) (nth s (lev (Datatypes.S n)) []) * eps (fun x => push (Datatypes.S n) (b k) (s, x)))))).
  - apply Zsum_cong. intros s _. unfold eps. transitivity (coeff (nth t (lev n) []) (nth s (lev (Datatypes.S n)) []) * Zsum N (fun q => Zsum M (fun k => c k * push (Datatypes.S n) (b k) (s, [q])))).
    + apply cong_mul; [reflexivity|]. apply Zsum_cong. intros q _. rewrite (pushf_cong p IN n0 nerve S 0 (Datatypes.S n) v _ (s, [q]) Hv), pushf_lin. reflexivity.
    + apply cong_eq. rewrite Zsum_swap, <- Zsum_scale. apply Zsum_ext. intros k _. rewrite Zsum_scale. ring.
  - apply cong_eq. rewrite Zsum_swap. apply Zsum_ext. intros k _. rewrite Zsum_scale. reflexivity.
Qed.

Lemma psi_sub n t u v : cong p (psi n t (fun x => u x - v x)) (psi n t u - psi n t v).
Proof.
  rewrite (psi_lin n t 2 (fun k => if Nat.eqb k 0 then 1 else -1) (fun k => if Nat.eqb k 0 then u else v)); [apply cong_eq; cbn [Zsum Nat.eqb]; ring|].
  intros x. apply cong_eq. cbn [Zsum Nat.eqb]. ring.
Qed.

Lemma psi_bounds n t r v : FB 0 (Datatypes.S n) r v -> cong p (psi n t v) 0.
Proof.
  intros Hv. apply Zsum_cong0. intros s Hs. pose proof (pushf_bounds _ _ _ _ _ _ _ _ _ HI S PO 0%nat Hm Htop _ _ _ Hv) as [_ B].
  rewrite (eps_bounds _ _ (B s Hs)). apply cong_eq. ring.
Qed.

Lemma psi_cycle n t r v : (t < length (lev n))%nat -> PZ 0 (Datatypes.S n) r v -> cong p (psi n t v) 0.
Proof.
  intros Ht [_ Hv]. pose proof (pushf_bounds _ _ _ _ _ _ _ _ _ HI S PO 0%nat Hm Htop _ _ _ Hv) as [_ B]. pose proof (eps_bounds _ _ (B t Ht)) as E.
  transitivity (esign 0 n * eps (fun x => push n (fam_cech IN n0 nerve S 0 n v) (t, x))); [|rewrite E; apply cong_eq; ring].
  apply cong_eq. unfold psi, eps. rewrite <- Zsum_scale.
  rewrite (Zsum_ext N _ (fun q => Zsum (length (lev (Datatypes.S n))) (fun s => coeff (nth t (lev n) []) (nth s (lev (Datatypes.S n)) []) * push (Datatypes.S n) v (s, [q])))).
  - rewrite Zsum_swap. apply Zsum_ext. intros s _. rewrite Zsum_scale. reflexivity.
  - intros q _. rewrite (pushf_cech _ _ _ _ _ _ _ _ _ HI S PO 0%nat Hm Htop), Z.mul_assoc, (esign_sq _ _ _ _ _ _ _ _ _ HI S PO 0%nat Hm), Z.mul_1_l.
    unfold cech. cbn [fst snd]. replace (Nat.ltb t _) with true by (symmetry; apply Nat.ltb_lt; exact Ht). reflexivity.
Qed.

(** It does not vanish on all the generators. *)
Lemma psi_gen n : (Datatypes.S n < length nerve)%nat -> rb 0 (Datatypes.S n) <> [] ->
  exists t h, (t < length (lev n))%nat /\ (h < length (rb 0 (Datatypes.S n)))%nat /\ ~ cong p (psi n t (fam_gen n0 nerve S 0 (Datatypes.S n) h)) 0.
Proof.
  intros Hn Hne. set (sn := Datatypes.S n) in *. pose proof (mv_cover _ _ _ _ _ _ _ _ HI) as HC. destruct (cov_simp _ _ _ _ HC) as (WF & _ & HF).
  destruct (row_pos n0 nerve S 0 sn 0) as (k0 & a & Hk0 & Ha & _); [destruct (rb 0 sn); [congruence|cbn; lia]|]. cbv beta in Hk0. unfold famlen in Ha.
  assert (Hq : exists q, In q (ins_of IN sn k0)).
  { destruct (ins_of IN sn k0) as [|q l] eqn:Ei; [|exists q; left; reflexivity]. exfalso.
    destruct (loc_pb _ _ _ _ _ _ _ _ _ HI S PO sn k0 0%nat Hn Hk0 Hm) as (B1 & B2 & _). pose proof (B1 _ (nth_In _ (0, 0) Ha)) as Hb.
    set (bars := b_bars (hom_of S sn k0 0)) in *. assert (Hr : bbirth bars a < max_r) by (unfold bbirth; lia). destruct (B2 _ Hr) as (G1 & _ & G3).
    assert (Al : bbirth bars a <= bbirth bars a < bdeath bars a) by (unfold bbirth, bdeath in *; lia).
    destruct (G1 a Ha Al) as [C _].
    assert (C0 : forall j, cong p (colv (b_coords (hom_of S sn k0 0)) a j) 0).
    { intros j. apply (mod_cong_0 p _ p_pos). destruct (Z.eq_dec (colv (b_coords (hom_of S sn k0 0)) a j mod p) 0) as [|X]; [assumption|]. exfalso.
      destruct (C j X) as [L _]. unfold simplices in L. rewrite Ei in L. cbn in L. lia. }
    assert (Y : (fun t => if Nat.eqb t a then 1 else 0) a mod p = 0).
    { apply (G3 (fun t => if Nat.eqb t a then 1 else 0)); [|apply (subs_zero p Hp _ _ (local_bounds_sub _ _ _ _ _ _ _ _ HI S sn 0%nat k0 _))|exact Ha].
      - intros t Ht. destruct (Nat.eqb_spec t a) as [->|]; [tauto|reflexivity].
      - intros i. apply Zsum_cong0. intros t _. destruct (Nat.eqb_spec t a) as [->|]; [rewrite C0|]; apply cong_eq; ring. }
    cbv beta in Y. rewrite Nat.eqb_refl, Z.mod_1_l in Y by (destruct Hp; lia). lia. }
  destruct Hq as (q & Hq). assert (HqN : (q < N)%nat) by (apply (cov_lt _ _ _ _ HC sn k0 q Hq)).
  set (w := fun x : nat * list nat => if (Nat.eqb (fst x) k0 && (if list_eq_dec Nat.eq_dec (snd x) [q] then true else false))%bool then 1 else 0).
  assert (Hw : cech_cycle p Dist IN n0 nerve 0 sn 0 w).
  { split.
    - intros k s Hk. unfold w. cbn [fst snd]. destruct (Nat.eqb_spec k k0); [lia|]. cbn [andb]. apply Zmod_0_l.
    - intros k Hk. split; [|lia]. intros s Hs. unfold w in Hs. cbn [fst snd] in Hs. destruct (Nat.eqb_spec k k0) as [->|]; cbn [andb] in Hs; [|rewrite Zmod_0_l in Hs; congruence].
      destruct (list_eq_dec Nat.eq_dec s [q]) as [->|]; [|rewrite Zmod_0_l in Hs; congruence]. split.
      + split; [|lia]. split; [reflexivity|]. split; [repeat constructor|]. split; [intros v [<-|[]]; exact HqN|]. intros u v [<-|[]] [<-|[]]. lia.
      + intros v [<-|[]]. exact Hq. }
  pose proof (mv_max_r _ _ _ _ _ _ _ _ HI) as HM.
  set (s0 := nth k0 (lev sn) []). assert (Hs0 : In s0 (lev sn)) by (apply nth_In; exact Hk0). destruct (WF _ _ Hs0) as (Ls & Is & _).
  pose proof (HF n s0 0%nat Hs0 ltac:(lia)) as Ht0. destruct (In_nth _ _ [] Ht0) as (t & Ht & Et).
  assert (Ew : cong p (psi n t (pullf IN n0 nerve S 0 sn w)) 1).
  { transitivity (coeff (nth t (lev n) []) s0 * 1).
    - unfold psi. fold sn. transitivity (Zsum (length (lev sn)) (fun s => coeff (nth t (lev n) []) (nth s (lev sn) []) * (if Nat.eqb s k0 then 1 else 0))).
      + apply Zsum_cong. intros s Hs. apply cong_mul; [reflexivity|]. transitivity (eps (fun x => w (s, x))).
        * apply Zsum_cong. intros v _. apply (push_pullf _ _ _ _ _ _ _ _ _ HI S PO 0%nat Hm Htop sn 0 w (s, [v]) HM Hw).
        * apply cong_eq. unfold eps, w. cbn [fst snd]. destruct (Nat.eqb_spec s k0) as [->|]; cbn [andb]; [|apply Zsum_0; reflexivity].
          rewrite (Zsum_single N q _ HqN); [destruct (list_eq_dec Nat.eq_dec [q] [q]); congruence|]. intros v _ Hv. destruct (list_eq_dec Nat.eq_dec [v] [q]); congruence.
      + apply cong_eq. rewrite (Zsum_single _ k0 _ Hk0); [rewrite Nat.eqb_refl; reflexivity|]. intros s _ Hsk. destruct (Nat.eqb_spec s k0); [contradiction|ring].
    - rewrite Et, coeff_bdc, bdc_facet by (auto; rewrite Ls; lia). reflexivity. }
  destruct (fam_pb _ _ _ _ _ _ _ _ _ HI S PO 0%nat Hm Htop sn) as (_ & Q & _). destruct (Q 0 HM) as (_ & Q2 & _).
  destruct (Q2 _ (pullf_cycle _ _ _ _ _ _ _ _ _ HI S PO 0%nat Hm Htop sn 0 w HM Hw)) as (c & _ & Hc).
  pose proof (psi_bounds n t 0 _ Hc) as E0. rewrite psi_sub in E0.
  assert (E1 : cong p 1 (Zsum (length (rb 0 sn)) (fun h => c h * psi n t (fam_gen n0 nerve S 0 sn h)))).
  { rewrite <- Ew. transitivity (psi n t (fun x => Zsum (length (rb 0 sn)) (fun h => c h * fam_gen n0 nerve S 0 sn h x))).
    - destruct E0 as [e E0]. exists e. lia.
    - apply psi_lin. intros; reflexivity. }
  destruct (Zsum_nz_mod p (length (rb 0 sn)) (fun h => c h * psi n t (fam_gen n0 nerve S 0 sn h)) p_pos) as (h & Hh & X).
  { rewrite <- (proj2 (cong_mod_iff p _ _ p_pos) E1), Z.mod_1_l by (destruct Hp; lia). lia. }
  exists t, h. split; [exact Ht|]. split; [exact Hh|]. intros Y. apply X. apply (mod_cong_0 p _ p_pos). rewrite Y. apply cong_eq. ring.
Qed.

Lemma PB_mono d n r s v : r <= s -> PB d n r v -> PB d n s v.
Proof.
  intros Hrs (A & w & B & C). split; [apply (fam_cycle_mono Dist p IN n0 nerve S d n r s v Hrs A)|]. exists w. split; [apply (fam_cycle_mono Dist p IN n0 nerve S d _ r s w Hrs B)|].
  apply (fam_bounds_mono Dist p IN n0 nerve S d n r s _ Hrs C).
Qed.

(** The classes of the second page are independent combinations of those of the first, and [psi] vanishes on them. *)
Theorem strict n H I reps : (Datatypes.S n < length nerve)%nat -> gens Dist max_r p IN n0 nerve S 0 (Datatypes.S n) H I reps -> rb 0 (Datatypes.S n) <> [] ->
  (b_dim H < length (rb 0 (Datatypes.S n)))%nat.
Proof.
  intros Hn GH Hne. destruct (psi_gen n Hn Hne) as (t & h0 & Ht & Hh0 & Hpsi). set (sn := Datatypes.S n) in *. set (C := length (rb 0 sn)) in *.
  rewrite (ge_dim _ _ _ _ _ _ _ _ _ _ _ _ GH). pose proof (ge_wb _ _ _ _ _ _ _ _ _ _ _ _ GH) as HW. set (B := length (b_bars H)) in *.
  set (ps := fun h => psi n t (fam_gen n0 nerve S 0 sn h)).
  assert (Hcol : forall k, (k < B)%nat -> cong p (Zsum C (fun h => get (b_coords H) h k * ps h)) 0).
  { intros k Hk. destruct HW as (W1 & W2 & _). pose proof (W1 _ (nth_In _ (0, 0) Hk)) as Hb. fold (bbirth (b_bars H) k) in Hb. fold (bdeath (b_bars H) k) in Hb.
    destruct (W2 (bbirth (b_bars H) k) ltac:(lia)) as (G1 & _). pose proof (psi_cycle n t _ _ Ht (G1 k Hk ltac:(lia))) as E. rewrite <- E. symmetry.
    apply (psi_lin n t C (fun h => get (b_coords H) h k) (fam_gen n0 nerve S 0 sn)). intros x. reflexivity. }
  set (V := fun k i => if Nat.ltb i C then (if Nat.ltb k B then get (b_coords H) i k else if Nat.eqb i h0 then 1 else 0) else 0).
  apply (exchange p Hp (Datatypes.S B) C V (fun j i => if Nat.eqb j i then 1 else 0)).
  - intros k _. exists (V k). intros i. apply cong_eq. unfold lc. destruct (Nat.ltb_spec i C) as [L|L].
    + rewrite (Zsum_single C i _ L); [rewrite Nat.eqb_refl; ring|]. intros j _ Hj. destruct (Nat.eqb_spec j i); [contradiction|ring].
    + rewrite Zsum_0; [unfold V; destruct (Nat.ltb_spec i C); [lia|reflexivity]|]. intros j Hj. destruct (Nat.eqb_spec j i); [lia|ring].
  - intros c Hc. unfold veq, lc, fzero in Hc.
    assert (Hi : forall i, (i < C)%nat -> cong p (Zsum B (fun k => c k * get (b_coords H) i k) + c B * (if Nat.eqb i h0 then 1 else 0)) 0).
    { intros i Hi. transitivity (Zsum (Datatypes.S B) (fun k => c k * V k i)); [|exact (Hc i)]. apply cong_eq. cbn [Zsum]. f_equal.
      - apply Zsum_ext. intros k Hk. unfold V. replace (Nat.ltb i C) with true by (symmetry; apply Nat.ltb_lt; exact Hi). replace (Nat.ltb k B) with true by (symmetry; apply Nat.ltb_lt; exact Hk). reflexivity.
      - unfold V. replace (Nat.ltb i C) with true by (symmetry; apply Nat.ltb_lt; exact Hi). rewrite Nat.ltb_irrefl. reflexivity. }
    assert (CB : cong p (c B) 0).
    { assert (E : cong p (c B * ps h0) 0).
      { transitivity (Zsum C (fun i => (Zsum B (fun k => c k * get (b_coords H) i k) + c B * (if Nat.eqb i h0 then 1 else 0)) * ps i)).
        - rewrite (Zsum_ext C _ (fun i => Zsum B (fun k => c k * (get (b_coords H) i k * ps i)) + c B * (if Nat.eqb i h0 then 1 else 0) * ps i)).
          2:{ intros i _. rewrite Z.mul_add_distr_r, <- Zsum_scale_r. f_equal. apply Zsum_ext. intros; ring. }
          rewrite Zsum_add, Zsum_swap. rewrite (Zsum_cong0 p B).
          2:{ intros k Hk. rewrite Zsum_scale, (Hcol k Hk). apply cong_eq. ring. }
          apply cong_eq. rewrite (Zsum_single C h0 _ Hh0); [rewrite Nat.eqb_refl; ring|]. intros i _ X. destruct (Nat.eqb_spec i h0); [contradiction|ring].
        - apply Zsum_cong0. intros i Hi'. rewrite (Hi i Hi'). apply cong_eq. ring. }
      destruct (cong0_mul p _ _ Hp E) as [X|X]; [exact X|]. elim (Hpsi X). }
    assert (Hall : forall k, (k < B)%nat -> cong p (c k) 0).
    { apply (wb_indep p _ _ max_r (b_bars H) _ Hp (fun r _ => page2_bounds_sub _ _ _ _ _ _ _ _ HI S 0%nat sn r Hm) (fun r s v Hrs => PB_mono 0 sn r s v (proj1 Hrs)) HW c).
      intros x. unfold fam_comb. fold C. fold B. transitivity (Zsum C (fun h => Zsum B (fun k => c k * get (b_coords H) h k) * fam_gen n0 nerve S 0 sn h x)).
      - apply cong_eq. rewrite (Zsum_ext C _ (fun h => Zsum B (fun k => c k * (get (b_coords H) h k * fam_gen n0 nerve S 0 sn h x)))).
        2:{ intros h _. rewrite <- Zsum_scale_r. apply Zsum_ext. intros; ring. }
        rewrite Zsum_swap. apply Zsum_ext. intros k _. rewrite Zsum_scale. reflexivity.
      - apply Zsum_cong0. intros h Hh. pose proof (Hi h Hh) as E. rewrite CB in E. rewrite Z.mul_0_l, Z.add_0_r in E. rewrite E. apply cong_eq. ring. }
    intros k Hk. destruct (Nat.eq_dec k B) as [->|X]; [exact CB|apply Hall; lia].
Qed.
End Strict.
