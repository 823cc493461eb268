(** * Sorting the generators of a page *)
From Coq Require Import QArith.
From Verif Require Import Base ListX SortX Lin Gauss_model Gauss_arith Gauss_col Gauss_solve Gauss_bar Basis_model Basis_props PH_model PH_loop PH_lin PH_step PH_props Simp_model Spec_Simp Simp_lists Simp_diff Simp_props
  Spec_PH Spec_Rips Rips_bd Rips_chain Rips_props LC_model Spec_LC LC_props SS_model Spec_SS SS_inv SS_page SS_cech SS_glue SS_e2 SS_lift SS_zig SS_first SS_double SS_fplift
  IK_model IK_lin IK_abs IK_quot IK_mph IK_post MPH_props Spec_IK Spec_Bars Bars MPH_bars Bars_weak Bars_complex Spec_E2 Blocks SS_rows Cover_model HP_model HP_table HP_row HP_gens HP_second HP_zero HP_pages Two_col Two_fam.
From Coq Require Import Sorted Permutation Znumtheory.
Local Open Scope Z_scope.
Local Notation e0 := (LEntry [] LNil).

Lemma Zsum_lsum N f : Zsum N f = fold_right Z.add 0 (map f (seq 0 N)).
Proof.
  induction N as [|N IH]; [reflexivity|]. cbn [Zsum]. rewrite seq_S, map_app, fold_right_app. cbn [map fold_right Nat.add]. rewrite IH. generalize (map f (seq 0 N)). intros l.
  replace (f N + 0) with (f N) by ring. generalize (f N). intros a. induction l as [|x l IHl]; cbn [fold_right]; [ring|]. rewrite <- IHl. ring.
Qed.

Lemma Zsum_perm N f o : Permutation (seq 0 N) o -> Zsum N f = Zsum N (fun k => f (nth k o 0%nat)).
Proof.
  intros HP. rewrite !Zsum_lsum.
  assert (E : map (fun k => f (nth k o 0%nat)) (seq 0 N) = map f o).
  { assert (L : length o = N) by (rewrite <- (Permutation_length HP); apply seq_length). rewrite <- L. clear. induction o as [|x o IH]; [reflexivity|]. cbn [length seq map nth]. f_equal. rewrite <- seq_shift, map_map. exact IH. }
  rewrite E. pose proof (Permutation_map f HP) as Hm. clear E HP. induction Hm as [|x a b _ IH|x y a|a b c _ IH1 _ IH2]; cbn [fold_right]; lia.
Qed.

Lemma perm_inverse N o : Permutation (seq 0 N) o -> exists q : nat -> nat, (forall k, (k < N)%nat -> (nth k o 0 < N)%nat /\ q (nth k o 0%nat) = k) /\ (forall i, (i < N)%nat -> (q i < N)%nat /\ nth (q i) o 0%nat = i).
Proof.
  intros HP. assert (L : length o = N) by (rewrite <- (Permutation_length HP); apply seq_length).
  assert (ND : NoDup o) by (apply (Permutation_NoDup HP); apply seq_NoDup).
  assert (In1 : forall i, In i o <-> (i < N)%nat).
  { intros i. split; intros H.
    - apply (Permutation_in i (Permutation_sym HP)) in H. apply in_seq in H. lia.
    - apply (Permutation_in i HP). apply in_seq. lia. }
  exists (fun i => match find_idx (Nat.eqb i) o with Some k => k | None => 0%nat end).
  assert (F : forall i, In i o -> exists k, find_idx (Nat.eqb i) o = Some k /\ (k < N)%nat /\ nth k o 0%nat = i).
  { intros i Hi. destruct (find_idx (Nat.eqb i) o) as [k|] eqn:E.
    - destruct (find_idx_Some _ _ _ 0%nat E) as (H1 & H2 & _). apply Nat.eqb_eq in H2. exists k. split; [reflexivity|]. split; [lia|auto].
    - exfalso. pose proof (proj1 (find_idx_None (Nat.eqb i) o) E i Hi) as X. rewrite Nat.eqb_refl in X. discriminate. }
  split.
  - intros k Hk. assert (Hi : In (nth k o 0%nat) o) by (apply nth_In; lia). split; [apply In1; exact Hi|]. destruct (F _ Hi) as (k' & -> & Hk' & E). apply (NoDup_nth o 0%nat); auto; lia.
  - intros i Hi. destruct (F i (proj2 (In1 i) Hi)) as (k & -> & H1 & H2). auto.
Qed.

Lemma pb_reindex {T} p (Zs Bs : Z -> (T -> Z) -> Prop) M bars g N o g' : Permutation (seq 0 N) o -> length bars = N -> (forall r, Spec_Bars.subspace p (Bs r)) ->
  (forall k x, (k < N)%nat -> g' k x = g (nth k o 0%nat) x) -> (forall r v w, (forall x, v x = w x) -> Zs r v -> Zs r w) ->
  persistent_basis p Zs Bs M bars g -> persistent_basis p Zs Bs M (take (0, 0) bars o) g'.
Proof.
  intros HP HL HS Hg HZ (P1 & P2 & P3). destruct (perm_inverse N o HP) as (q & Q1 & Q2).
  assert (Lo : length o = N) by (rewrite <- (Permutation_length HP); apply seq_length).
  assert (Lt : length (take (0, 0) bars o) = N) by (unfold take; rewrite map_length; exact Lo).
  assert (Nt : forall k, (k < N)%nat -> nth k (take (0, 0) bars o) (0, 0) = nth (nth k o 0%nat) bars (0, 0)).
  { intros k Hk. unfold take. rewrite (nth_map (fun i => nth i bars (0, 0)) o k 0%nat) by lia. reflexivity. }
  split; [|split].
  - intros x Hx. apply (In_nth _ _ (0, 0)) in Hx. destruct Hx as (k & Hk & <-). rewrite Lt in Hk. rewrite Nt by exact Hk. apply P1. apply nth_In. rewrite HL. apply Q1. exact Hk.
  - intros r Hr. rewrite Lt. destruct (P2 r Hr) as (A1 & A2 & A3). rewrite HL in A1, A2, A3. split; [|split].
    + intros k Hk Ha. unfold bbirth, bdeath in Ha. rewrite Nt in Ha by exact Hk. apply (HZ r (g (nth k o 0%nat))); [intros x; symmetry; apply Hg; exact Hk|]. apply A1; [apply Q1; exact Hk|exact Ha].
    + intros v Hv. destruct (A2 v Hv) as (c & C1 & C2). exists (fun k => if Nat.ltb k N then c (nth k o 0%nat) else 0). split.
      * intros k Hk. destruct (Nat.ltb_spec k N) as [L|L]; [|reflexivity]. apply C1. unfold bbirth, bdeath in *. rewrite Nt in Hk by exact L. exact Hk.
      * refine (sub_ext p _ _ _ (HS r) _ C2). intros x. cbv beta. f_equal. rewrite (Zsum_perm N (fun k => c k * g k x) o HP). apply Zsum_ext. intros k Hk. rewrite Hg by exact Hk. apply Nat.ltb_lt in Hk. rewrite Hk. reflexivity.
    + intros c C1 C2 k Hk. pose (c' := fun i => if Nat.ltb i N then c (q i) else 0).
      assert (X : c' (nth k o 0%nat) mod p = 0).
      { apply (A3 c'); [| |apply Q1; exact Hk].
        - intros i Hi. unfold c'. destruct (Nat.ltb_spec i N) as [L|L]; [|reflexivity]. apply C1. destruct (Q2 i L) as [L' E]. unfold bbirth, bdeath in *. rewrite Nt, E by exact L'. exact Hi.
        - refine (sub_ext p _ _ _ (HS r) _ C2). intros x. cbv beta. rewrite (Zsum_perm N (fun k => c' k * g k x) o HP). apply Zsum_ext. intros i Hi. rewrite Hg by exact Hi. unfold c'. destruct (Q1 i Hi) as [L E].
          apply Nat.ltb_lt in L. rewrite L, E. reflexivity. }
      unfold c' in X. destruct (Q1 k Hk) as [L E]. apply Nat.ltb_lt in L. rewrite L, E in X. exact X.
  - intros r k Hr Hk Hd. rewrite Lt in Hk. unfold bdeath in Hd. rewrite Nt in Hd by exact Hk. apply (sub_ext p _ (g (nth k o 0%nat))); [apply HS|intros x; symmetry; apply Hg; exact Hk|]. apply P3; [exact Hr|rewrite HL; apply Q1; exact Hk|exact Hd].
Qed.

Lemma wb_reindex {T} p (Zs Bs : Z -> (T -> Z) -> Prop) M bars g N o g' : Permutation (seq 0 N) o -> length bars = N -> (forall r, Spec_Bars.subspace p (Bs r)) ->
  (forall k x, (k < N)%nat -> g' k x = g (nth k o 0%nat) x) -> (forall r v w, (forall x, v x = w x) -> Zs r v -> Zs r w) ->
  weak_basis p Zs Bs M bars g -> weak_basis p Zs Bs M (take (0, 0) bars o) g'.
Proof.
  intros HP HL HS Hg HZ (P1 & P2 & P3). destruct (perm_inverse N o HP) as (q & Q1 & Q2).
  assert (Lo : length o = N) by (rewrite <- (Permutation_length HP); apply seq_length).
  assert (Lt : length (take (0, 0) bars o) = N) by (unfold take; rewrite map_length; exact Lo).
  assert (Nt : forall k, (k < N)%nat -> nth k (take (0, 0) bars o) (0, 0) = nth (nth k o 0%nat) bars (0, 0)).
  { intros k Hk. unfold take. rewrite (nth_map (fun i => nth i bars (0, 0)) o k 0%nat) by lia. reflexivity. }
  split; [|split].
  - intros x Hx. apply (In_nth _ _ (0, 0)) in Hx. destruct Hx as (k & Hk & <-). rewrite Lt in Hk. rewrite Nt by exact Hk. apply P1. apply nth_In. rewrite HL. apply Q1. exact Hk.
  - intros r Hr. rewrite Lt. destruct (P2 r Hr) as (A1 & A2 & A3). rewrite HL in A1, A2, A3. split; [|split].
    + intros k Hk Ha. unfold bbirth, bdeath in Ha. rewrite Nt in Ha by exact Hk. apply (HZ r (g (nth k o 0%nat))); [intros x; symmetry; apply Hg; exact Hk|]. apply A1; [apply Q1; exact Hk|exact Ha].
    + intros v Hv. destruct (A2 v Hv) as (c & C1 & C2). exists (fun k => if Nat.ltb k N then c (nth k o 0%nat) else 0). split.
      * intros k Hk. destruct (Nat.ltb_spec k N) as [L|L]; [|reflexivity]. apply C1. unfold bbirth, bdeath in *. rewrite Nt in Hk by exact L. exact Hk.
      * refine (sub_ext p _ _ _ (HS r) _ C2). intros x. cbv beta. f_equal. rewrite (Zsum_perm N (fun k => c k * g k x) o HP). apply Zsum_ext. intros k Hk. rewrite Hg by exact Hk. apply Nat.ltb_lt in Hk. rewrite Hk. reflexivity.
    + intros c C1 C2 k Hk. pose (c' := fun i => if Nat.ltb i N then c (q i) else 0).
      assert (X : c' (nth k o 0%nat) mod p = 0).
      { apply (A3 c'); [| |apply Q1; exact Hk].
        - intros i Hi. unfold c'. destruct (Nat.ltb_spec i N) as [L|L]; [|reflexivity]. apply C1. destruct (Q2 i L) as [L' E]. unfold bbirth, bdeath in *. rewrite Nt, E by exact L'. exact Hi.
        - refine (sub_ext p _ _ _ (HS r) _ C2). intros x. cbv beta. rewrite (Zsum_perm N (fun k => c' k * g k x) o HP). apply Zsum_ext. intros i Hi. rewrite Hg by exact Hi. unfold c'. destruct (Q1 i Hi) as [L E].
          apply Nat.ltb_lt in L. rewrite L, E. reflexivity. }
      unfold c' in X. destruct (Q1 k Hk) as [L E]. apply Nat.ltb_lt in L. rewrite L, E in X. exact X.
  - intros k Hk Hd. rewrite Lt in Hk |- *. assert (Hb : bdeath (take (0, 0) bars o) k = bdeath bars (nth k o 0%nat)) by (unfold bdeath; rewrite Nt by exact Hk; reflexivity).
    rewrite Hb in Hd. destruct (P3 (nth k o 0%nat) ltac:(rewrite HL; apply Q1; exact Hk) Hd) as (c & C1 & C2). rewrite HL in C1, C2.
    exists (fun t => if Nat.ltb t N then c (nth t o 0%nat) else 0). split.
    + intros t Ht. destruct (Nat.ltb_spec t N) as [L|L]; [|lia]. split; [exact L|]. unfold bbirth, bdeath. rewrite !Nt by auto. apply C1. exact Ht.
    + rewrite Hb. refine (sub_ext p _ _ _ (HS _) _ C2). intros x. cbv beta. rewrite Hg by exact Hk. f_equal. rewrite (Zsum_perm N (fun k => c k * g k x) o HP). apply Zsum_ext. intros t Ht. rewrite Hg by exact Ht. apply Nat.ltb_lt in Ht. rewrite Ht. reflexivity.
Qed.

(** The generators in another order. *)
Definition vb (H : basis) (o : list nat) : basis := Basis (take (0, 0) (b_bars H) o) false (b_dim H) (b_prev H) (take_cols (b_coords H) o) true None None.

Lemma sums_permuted ws c N o c' : Permutation (seq 0 N) o -> (0 < N)%nat -> good ws c -> (forall k g, In g (le_ref (nth k c e0)) -> (g < N)%nat) -> sums c (mtr (take_cols (mident N) o)) = Ok c' ->
  good ws c' /\ (forall k g, In g (le_ref (nth k c' e0)) -> (g < N)%nat) /\ (forall k, nth k c e0 = e0 -> nth k c' e0 = e0) /\ forall k g j, (g < N)%nat -> value c' k g j = value c k (nth g o 0%nat) j.
Proof.
  intros HP HN Hg HR E. assert (Lo : length o = N) by (rewrite <- (Permutation_length HP); apply seq_length). destruct (perm_inverse N o HP) as (q & Q1 & Q2).
  destruct (mtr_dims (take_cols (mident N) o)) as [D1 D2].
  assert (Nr : nrows (take_cols (mident N) o) = N) by reflexivity.
  assert (Nc : ncols (take_cols (mident N) o) = N) by (unfold ncols, take_cols; cbn [cols]; rewrite map_length; exact Lo).
  rewrite Nc in D1. rewrite Nr in D2.
  assert (D2' : ncols (mtr (take_cols (mident N) o)) = N) by exact D2.
  destruct (sums_ok ws (mtr (take_cols (mident N) o)) c Hg) as (c1 & E1 & G1 & R1 & V1); [intros k g Hk; rewrite D2'; eapply HR; exact Hk|]. rewrite E in E1. injection E1 as <-. rewrite D1, D2' in *.
  split; [exact G1|]. split; [|split].
  - intros k g Hk. change e0 with (LEntry [] LNil) in Hk. rewrite R1 in Hk. destruct (Nat.eqb _ 0); [destruct Hk|]. apply in_seq in Hk. lia.
  - intros k Hk. destruct (mapM_Ok _ _ _ E) as [Lc Hc]. destruct (Nat.lt_ge_cases k (length c)) as [L|L]; [|apply nth_overflow; lia]. specialize (Hc k e0 e0 L). rewrite Hk in Hc. injection Hc as <-. reflexivity.
  - intros k g j Hgn. rewrite V1 by exact Hgn. rewrite (Zsum_single N (nth g o 0%nat)); [|apply Q1; exact Hgn|].
    + rewrite get_mtr by (rewrite ?Nr, ?Nc; auto; apply Q1; exact Hgn). unfold get. rewrite nth_take_cols by lia. change (vget (col (mident N) (nth g o 0%nat)) (nth g o 0%nat)) with (get (mident N) (nth g o 0%nat) (nth g o 0%nat)).
      rewrite mident_get by (apply Q1; exact Hgn). unfold funit. rewrite Nat.eqb_refl. ring.
    + intros i Hi Hne. rewrite get_mtr by (rewrite ?Nr, ?Nc; auto). unfold get. rewrite nth_take_cols by lia. change (vget (col (mident N) (nth g o 0%nat)) i) with (get (mident N) i (nth g o 0%nat)).
      rewrite mident_get by (apply Q1; exact Hgn). unfold funit. destruct (Nat.eqb_spec (nth g o 0%nat) i) as [X|X]; [congruence|]. destruct (Nat.eqb_spec i (nth g o 0%nat)); [congruence|]. ring.
Qed.

Section Perm.
Variables (argsort : list Z -> list nat) (Dist : list (list Z)) (max_r max_dim p : Z) (IN : list (list (list nat))) (n0 : nat) (nerve : list (list simplex)).
Hypothesis HI : mv_input argsort Dist max_r max_dim p IN n0 nerve.
Variable S : ss.
Let m := Z.to_nat max_dim.

Lemma cycle_ext d n r v w : (forall x, v x = w x) -> fam_cycle p Dist IN n0 nerve S d n r v -> fam_cycle p Dist IN n0 nerve S d n r w.
Proof. intros E. apply (sub_ext p); [apply (fam_cycle_sub argsort Dist max_r max_dim p IN n0 nerve HI S)|]. intros x. apply E. Qed.

Lemma cech_eq n d k (v w : nat -> nat -> Z) j : (forall s i, v s i = w s i) -> cech_image n0 nerve IN S n d k v j = cech_image n0 nerve IN S n d k w j.
Proof.
  intros E. unfold cech_image. f_equal. apply Zsum_ext. intros s Hs. f_equal. unfold on_simplices. apply Zsum_ext. intros i Hi. destruct (list_eq_dec _ _ _); [apply E|reflexivity].
Qed.

Lemma gens_perm d n H I reps o reps' : (d < m)%nat -> gens Dist max_r p IN n0 nerve S d n H I reps -> (0 < b_dim H)%nat -> Permutation (seq 0 (b_dim H)) o ->
  mapM (fun c => sums c (mtr (take_cols (mident (b_dim H)) o))) reps = Ok reps' -> gens Dist max_r p IN n0 nerve S d n (vb H o) I reps'.
Proof.
  intros Hd GE Hpos HP EM. destruct (perm_inverse _ _ HP) as (q & Q1 & Q2). assert (Lo : length o = b_dim H) by (rewrite <- (Permutation_length HP); apply seq_length).
  pose proof (ge_dim _ _ _ _ _ _ _ _ _ _ _ _ GE) as Ld. destruct (ge_over _ _ _ _ _ _ _ _ _ _ _ _ GE Hpos) as ((B1 & B2 & B3) & O2 & O3 & O4 & O5 & O6 & O7).
  assert (Gc : forall i k, (k < b_dim H)%nat -> get (take_cols (b_coords H) o) i k = get (b_coords H) i (nth k o 0%nat)) by (intros i k Hk; unfold get; rewrite nth_take_cols by lia; reflexivity).
  assert (Nt : forall k, (k < b_dim H)%nat -> nth k (take (0, 0) (b_bars H) o) (0, 0) = nth (nth k o 0%nat) (b_bars H) (0, 0)).
  { intros k Hk. unfold take. rewrite (nth_map (fun i => nth i (b_bars H) (0, 0)) o k 0%nat) by lia. reflexivity. }
  assert (Cm : forall k x, (k < b_dim H)%nat -> fam_comb n0 nerve S d n (Spec_IK.column (b_coords (vb H o)) k) x = fam_comb n0 nerve S d n (Spec_IK.column (b_coords H) (nth k o 0%nat)) x).
  { intros k x Hk. unfold fam_comb. apply Zsum_ext. intros i Hi. f_equal. unfold Spec_IK.column. cbn [vb b_coords]. apply Gc. exact Hk. }
  constructor; cbn [vb b_bars b_dim b_coords].
  - apply (wb_reindex p _ _ max_r (b_bars H) (fun k => fam_comb n0 nerve S d n (Spec_IK.column (b_coords H) k)) (b_dim H) o); auto.
    + intros r. apply (page2_bounds_sub _ _ _ _ _ _ _ _ HI S d n r Hd).
    + intros r v w E [Z1 Z2]. split; [revert Z1; apply cycle_ext; exact E|]. destruct n; [exact Z2|]. revert Z2. apply (sub_ext p); [apply (fam_bounds_sub argsort Dist max_r max_dim p IN n0 nerve HI S)|].
      intros x. unfold fam_cech. destruct (Nat.ltb _ _); [|reflexivity]. apply cech_eq. intros s i. apply (E (s, i)).
    + exact (ge_wb _ _ _ _ _ _ _ _ _ _ _ _ GE).
  - intros Hex. apply (pb_reindex p _ _ max_r (b_bars H) (fun k => fam_comb n0 nerve S d n (Spec_IK.column (b_coords H) k)) (b_dim H) o); auto.
    + intros r. apply (page2_bounds_sub _ _ _ _ _ _ _ _ HI S d n r Hd).
    + intros r v w E [Z1 Z2]. split; [revert Z1; apply cycle_ext; exact E|]. destruct n; [exact Z2|]. revert Z2. apply (sub_ext p); [apply (fam_bounds_sub argsort Dist max_r max_dim p IN n0 nerve HI S)|].
      intros x. unfold fam_cech. destruct (Nat.ltb _ _); [|reflexivity]. apply cech_eq. intros s i. apply (E (s, i)).
    + exact (ge_pb _ _ _ _ _ _ _ _ _ _ _ _ GE Hex).
  - unfold take. rewrite map_length. lia.
  - intros _. unfold over, bars_ok. cbn [vb b_flat b_dim b_bars b_prev b_sorted b_brk b_coords]. split; [split; [reflexivity|split]|].
    + unfold take. rewrite map_length. lia.
    + intros x Hx. apply (In_nth _ _ (0, 0)) in Hx. destruct Hx as (k & Hk & <-). unfold take in Hk. rewrite map_length, Lo in Hk. rewrite Nt by exact Hk. apply B3. apply nth_In. rewrite <- Ld. apply Q1. exact Hk.
    + split; [exact O2|]. split; [reflexivity|]. split; [reflexivity|]. split; [exact O5|]. split; [unfold ncols, take_cols; cbn [cols]; rewrite map_length; exact Lo|].
      unfold wf_mat, take_cols. cbn [cols nrows]. apply Forall_forall. intros x Hx. apply in_map_iff in Hx. destruct Hx as (i & <- & Hi). apply (In_nth _ _ 0%nat) in Hi. destruct Hi as (k & Hk & <-).
      unfold wf_mat in O7. rewrite Forall_forall in O7. apply O7. unfold col. apply nth_In. fold (ncols (b_coords H)). rewrite O6. apply Q1. lia.
  - intros k i Hk Hi Hne. rewrite Gc in Hne by exact Hk. rewrite Nt by exact Hk. apply (ge_sup _ _ _ _ _ _ _ _ _ _ _ _ GE); [apply Q1; exact Hk|exact Hi|exact Hne].
  - exact (ge_im0 _ _ _ _ _ _ _ _ _ _ _ _ GE).
  - exact (ge_im _ _ _ _ _ _ _ _ _ _ _ _ GE).
  - lia.
  - intros _. destruct (ge_reps _ _ _ _ _ _ _ _ _ _ _ _ GE Hpos) as (rep & rest & -> & Gr & Rr & Vr & Hrest). cbn [mapM] in EM.
    destruct (sums rep _) as [rep'|] eqn:Er; [|discriminate]. cbn [bind] in EM. destruct (mapM _ rest) as [rest'|] eqn:Et; [|discriminate]. cbn [bind] in EM. injection EM as <-.
    destruct (sums_permuted _ _ _ _ _ HP Hpos Gr Rr Er) as (Gr' & Rr' & _ & Vr'). exists rep', rest'. split; [reflexivity|]. split; [exact Gr'|]. split; [exact Rr'|]. split.
    { intros k g j Hk Hg. rewrite Vr', Vr by (auto; apply Q1; exact Hg). symmetry. apply (Cm g (k, j) Hg). }
    destruct n as [|n']; [subst rest; injection Et as <-; reflexivity|]. destruct Hrest as (lift & -> & Gl & Rl & Hl). cbn [mapM] in Et.
    destruct (sums lift _) as [lift'|] eqn:El; [|discriminate]. cbn [bind] in Et. injection Et as <-.
    destruct (sums_permuted _ _ _ _ _ HP Hpos Gl Rl El) as (Gl' & Rl' & Zl' & Vl'). exists lift'. split; [reflexivity|]. split; [exact Gl'|]. split; [exact Rl'|].
    intros k g Hk Hg. destruct (Hl k (nth g o 0%nat) Hk ltac:(apply Q1; exact Hg)) as (L1 & L2 & L3). split; [|split].
    + intros j Hj. rewrite Vl' in Hj by exact Hg. unfold bbirth. rewrite Nt by exact Hg. apply L1. exact Hj.
    + intros Hne j. etransitivity; [|exact (L2 Hne j)]. apply cong_eq. f_equal.
      * apply cech_eq. intros s i. apply Vr'. exact Hg.
      * unfold local_bd. apply Zsum_ext. intros i Hi. f_equal. apply Vl'. exact Hg.
    + intros E. apply Zl'. apply L3. exact E.
Qed.
End Perm.
