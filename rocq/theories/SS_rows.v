(** * The rows of the first page as complexes of persistence modules *)
From Verif Require Import Base ListX SortX Lin Gauss_model Gauss_arith Gauss_solve Basis_model PH_model PH_lin PH_props Simp_model Spec_Simp Simp_lists Simp_diff Simp_props
  Spec_PH Spec_Rips Rips_bd Rips_chain Rips_props LC_model Spec_LC LC_props SS_model Spec_SS SS_inv SS_page SS_cech SS_lift SS_zig SS_first SS_double
  SS_fplift IK_lin IK_abs IK_quot IK_mph Spec_IK Spec_Bars Bars MPH_bars Rips_bars Bars_complex Spec_E2 Blocks.
From Coq Require Import Sorted Permutation Znumtheory.
Local Open Scope Z_scope.

Section Rows.
Variables (argsort : list Z -> list nat) (rnd : Z -> Z) (Dist : list (list Z)) (max_r max_dim p : Z)
  (IN : list (list (list nat))) (n0 : nat) (nerve : list (list simplex)).
Hypothesis HI : mv_input argsort Dist max_r max_dim p IN n0 nerve.
Variable S : ss.
Hypothesis PO : page_ok argsort rnd Dist max_r max_dim p IN n0 nerve S.
Let m := Z.to_nat max_dim.
Let Hp := mv_prime _ _ _ _ _ _ _ _ HI.
Let lev n := level n0 nerve n.
Let G := simplices IN S.
Let p_pos : 0 < p. Proof. destruct Hp. lia. Qed.
Let iff0 a : a mod p = 0 <-> cong p a 0. Proof. apply mod_cong_0. exact p_pos. Qed.
Let ciff a b : cong p a b <-> a mod p = b mod p. Proof. symmetry. apply (cong_mod_iff p _ _ p_pos). Qed.

(** ** Local spaces *)
Lemma local_chain_sub n d k r : Spec_Bars.subspace p (local_chain p Dist IN S n d k r).
Proof.
  intros N c b v Hb Hv j Hj. destruct (Zsum_nz_mod p N (fun t => c t * b t j)) as (t & Ht & Hne); [auto|rewrite <- Hv; auto|].
  apply (Hb t Ht). intros X. apply Hne. apply iff0. apply iff0 in X. rewrite X. apply cong_eq. ring.
Qed.

Lemma local_bd_lin n d k N (c : nat -> Z) (b : nat -> nat -> Z) v : (forall i, cong p (v i) (Zsum N (fun t => c t * b t i))) ->
  forall j, cong p (local_bd IN S n d k v j) (Zsum N (fun t => c t * local_bd IN S n d k (b t) j)).
Proof.
  intros H j. unfold local_bd. transitivity (Zsum (length (simplices IN S n k (Datatypes.S d))) (fun i => Zsum N (fun t => c t * (get (nth d (l_Ds (loc_of S n k)) (Mat 0 [])) j i * b t i)))).
  - apply Zsum_cong. intros i _. rewrite (H i). apply cong_eq. rewrite <- Zsum_scale. apply Zsum_ext. intros; ring.
  - apply cong_eq. rewrite Zsum_swap. apply Zsum_ext. intros t _. rewrite Zsum_scale. reflexivity.
Qed.

Lemma local_cycle_sub n d k r : Spec_Bars.subspace p (local_cycle p Dist IN S n d k r).
Proof.
  intros N c b v Hb Hv. split.
  - apply (local_chain_sub n d k r N c b); auto. intros t Ht. apply Hb; auto.
  - destruct d as [|d]; [exact I|]. intros i. apply iff0. rewrite (local_bd_lin n d k N c b v); [|intros j; apply ciff; auto].
    apply Zsum_cong0. intros t Ht. destruct (Hb t Ht) as [_ H]. specialize (H i). apply iff0 in H. rewrite H. apply cong_eq. ring.
Qed.

Lemma choose_fun {A} (d : A) n (P : nat -> A -> Prop) : (forall k, (k < n)%nat -> exists w, P k w) -> exists f, forall k, (k < n)%nat -> P k (f k).
Proof.
  induction n as [|n IH]; intros H; [exists (fun _ => d); intros; lia|].
  destruct IH as [f Hf]; [intros; apply H; lia|]. destruct (H n ltac:(lia)) as [w Hw].
  exists (fun k => if Nat.eqb k n then w else f k). intros k Hk. destruct (Nat.eqb_spec k n) as [->|Hne]; auto. apply Hf. lia.
Qed.

Lemma local_bounds_sub n d k r : Spec_Bars.subspace p (local_bounds p Dist IN S n d k r).
Proof.
  intros N c b v Hb Hv. destruct (choose_fun (fun _ => 0) N _ Hb) as [w Hw].
  exists (fun i => Zsum N (fun t => c t * w t i)). split.
  - apply (local_chain_sub n (Datatypes.S d) k r N c w); [intros t Ht; apply Hw; auto|reflexivity].
  - intros j. rewrite Hv. apply ciff. rewrite (local_bd_lin n d k N c w); [|intros; reflexivity]. apply Zsum_cong. intros t Ht.
    apply cong_mul; [reflexivity|]. apply ciff. apply Hw; auto.
Qed.

Lemma local_chain_mono n d k r s v : r <= s -> local_chain p Dist IN S n d k r v -> local_chain p Dist IN S n d k s v.
Proof. intros H Hv j Hj. destruct (Hv j Hj) as [H1 H2]. split; auto. apply (rips_mono Dist d r); auto. Qed.
Lemma local_cycle_mono n d k r s v : r <= s -> local_cycle p Dist IN S n d k r v -> local_cycle p Dist IN S n d k s v.
Proof. intros H [H1 H2]. split; auto. apply (local_chain_mono _ _ _ r); auto. Qed.
Lemma local_bounds_mono n d k r s v : r <= s -> local_bounds p Dist IN S n d k r v -> local_bounds p Dist IN S n d k s v.
Proof. intros H (w & H1 & H2). exists w. split; auto. apply (local_chain_mono _ _ _ r); auto. Qed.

(** ** Boundaries are cycles *)
Lemma valid_bounds_cycle n0' Ds R d r v : valid_complex p max_r n0' Ds R -> (d < length Ds)%nat -> Spec_PH.bounds_at p Ds R d r v -> cycle_at p Ds R d r v.
Proof.
  intros VC Hd (w & Hw & Hv). split.
  - intros i Hi. rewrite <- Hv in Hi. destruct (Zsum_nz_mod p _ _ p_pos Hi) as (j & Hj & Hne).
    assert (Hwj : w j mod p <> 0) by (intros X; apply Hne; apply iff0; apply iff0 in X; rewrite X; apply cong_eq; ring).
    assert (Hb : bd_entry Ds (Datatypes.S d) i j <> 0) by (intros X; apply Hne; rewrite X; apply Zmod_0_l).
    destruct (Hw j Hwj) as [_ Hr]. split; [|pose proof (vc_face _ _ _ _ _ VC d i j Hj Hb); lia].
    destruct (Nat.lt_ge_cases i (csize R d)) as [Hl|Hl]; auto. exfalso. apply Hb. cbn [bd_entry].
    apply get_wf_out; [apply (vc_wf _ _ _ _ _ VC); auto|]. rewrite (vc_nrows _ _ _ _ _ VC) by auto. exact Hl.
  - intros i. apply iff0. unfold bd_of at 1. destruct d as [|d].
    { cbn [bd_entry]. apply cong_eq. apply Zsum_0. intros; ring. }
    transitivity (Zsum (csize R (Datatypes.S d)) (fun k => Zsum (csize R (Datatypes.S (Datatypes.S d))) (fun j => w j * (bd_entry Ds (Datatypes.S d) i k * bd_entry Ds (Datatypes.S (Datatypes.S d)) k j)))).
    + apply Zsum_cong. intros k Hk. rewrite <- (proj2 (ciff _ _) (Hv k)). apply cong_eq. unfold bd_of. rewrite <- Zsum_scale. apply Zsum_ext. intros; ring.
    + rewrite Zsum_swap. apply Zsum_cong0. intros j Hj. rewrite Zsum_scale.
      pose proof (vc_square _ _ _ _ _ VC d i j Hj) as Hs. apply iff0 in Hs. rewrite Hs. apply cong_eq. ring.
Qed.

(** ** A persistent basis of the homology of one local complex *)
Section One.
Variables (n k d : nat).
Hypothesis Hn : (n < length nerve)%nat.
Hypothesis Hk : (k < length (lev n))%nat.
Hypothesis Hd : (d < m)%nat.
Let H := hom_of S n k d.

Lemma local_bounds_cycle r v : local_bounds p Dist IN S n d k r v -> local_cycle p Dist IN S n d k r v.
Proof.
  intros Hv. destruct (loc_ok _ _ _ _ _ _ _ _ _ S PO n k Hn Hk) as [R OK].
  apply (SS_zig.cycle_iff _ _ _ _ _ _ _ _ _ HI S PO n k Hn Hk R OK d); [fold m; lia|]. apply (bounds_iff _ _ _ _ _ _ _ _ _ HI S PO n k Hn Hk R OK d) in Hv; auto.
  apply (valid_bounds_cycle (length (ins_of IN n k))); auto; [apply (lo_valid _ _ _ _ _ _ _ _ OK)|]. rewrite (lo_Ds _ _ _ _ _ _ _ _ OK). exact Hd.
Qed.

Lemma loc_pb : persistent_basis p (local_cycle p Dist IN S n d k) (local_bounds p Dist IN S n d k) max_r (b_bars H) (colv (b_coords H)).
Proof.
  destruct (loc_ok _ _ _ _ _ _ _ _ _ S PO n k Hn Hk) as [R OK].
  pose proof (lo_valid _ _ _ _ _ _ _ _ OK) as VC. pose proof (lo_ph _ _ _ _ _ _ _ _ OK) as PH. pose proof (lo_Ds _ _ _ _ _ _ _ _ OK) as LD.
  assert (Hdd : (d <= length (l_Ds (loc_of S n k)))%nat) by (rewrite LD; fold m; lia).
  change H with (nth d (ph_hom (l_out (loc_of S n k))) empty_basis) in *.
  split; [|split].
  - intros x Hx. destruct (C23_aux rnd p max_r _ _ R _ Hp VC PH) as (_ & _ & _ & Hsh). destruct (Hsh d Hdd) as (Hb & _).
    apply (In_nth _ _ (0, 0)) in Hx. destruct Hx as (i & Hi & <-). specialize (Hb i Hi). exact Hb.
  - intros r Hr. pose proof (C20_aux rnd p max_r _ _ R _ Hp VC PH d r Hdd Hr) as (H1 & H2 & H3). split; [|split].
    + intros h Hh Ha. apply (SS_zig.cycle_iff _ _ _ _ _ _ _ _ _ HI S PO n k Hn Hk R OK d); [fold m; lia|]. apply H1; auto.
    + intros v Hv. apply (SS_zig.cycle_iff _ _ _ _ _ _ _ _ _ HI S PO n k Hn Hk R OK d) in Hv; [|fold m; lia]. destruct (H2 v Hv) as (c & Hc & Hb).
      exists c. split; auto. apply (bounds_iff _ _ _ _ _ _ _ _ _ HI S PO n k Hn Hk R OK d); auto.
    + intros c Hc Hb. apply H3; auto. apply (bounds_iff _ _ _ _ _ _ _ _ _ HI S PO n k Hn Hk R OK d) in Hb; auto.
  - intros r h Hr Hh Hlt. destruct (C21_aux rnd p max_r _ _ R _ Hp VC PH d h Hdd Hh) as [He _].
    apply (local_bounds_mono n d k (bdeath (b_bars (nth d (ph_hom (l_out (loc_of S n k))) empty_basis)) h)); auto.
    apply (bounds_iff _ _ _ _ _ _ _ _ _ HI S PO n k Hn Hk R OK d); auto. apply He. lia.
Qed.

End One.

(** ** Families over the nerve *)
Section Fam.
Variable d : nat.
Hypothesis Hd : (d < m)%nat.
Hypothesis Htop : lev (length nerve) = [].

Lemma lev_lt n k : (k < length (lev n))%nat -> (n < length nerve)%nat.
Proof.
  intros Hk. destruct (Nat.lt_ge_cases n (length nerve)) as [H|H]; auto. exfalso. destruct (Nat.eq_dec n (length nerve)) as [->|Hne].
  - rewrite Htop in Hk. cbn in Hk. lia.
  - unfold lev, level in Hk. destruct n as [|n]; [lia|]. rewrite nth_overflow in Hk by lia. cbn in Hk. lia.
Qed.

Definition famlen (n k : nat) : nat := length (b_bars (hom_of S n k d)).
Definition row_bars (n : nat) : list bar := concat (map (fun k => b_bars (hom_of S n k d)) (seq 0 (length (level n0 nerve n)))).
Definition fam_gen (n h : nat) (x : nat * nat) : Z :=
  if Nat.ltb (fst x) (length (level n0 nerve n)) && in_block (famlen n) (fst x) h
  then get (b_coords (hom_of S n (fst x) d)) (snd x) (h - start (famlen n) (fst x)) else 0.

Lemma row_bars_length n : length (row_bars n) = start (famlen n) (length (lev n)).
Proof. unfold row_bars. rewrite length_concat_start. reflexivity. Qed.

Lemma row_bars_nth n k a : (k < length (lev n))%nat -> (a < famlen n k)%nat -> nth (start (famlen n) k + a) (row_bars n) (0, 0) = nth a (b_bars (hom_of S n k d)) (0, 0).
Proof. intros Hk Ha. unfold row_bars. apply (nth_concat_start (fun k => b_bars (hom_of S n k d))); auto. Qed.

Lemma row_pos n h : (h < length (row_bars n))%nat -> exists k a, (k < length (lev n))%nat /\ (a < famlen n k)%nat /\ h = (start (famlen n) k + a)%nat.
Proof. rewrite row_bars_length. apply split_pos. Qed.

Lemma gen_part n k a k' : (k < length (lev n))%nat -> (a < famlen n k)%nat ->
  forall j, part (fam_gen n (start (famlen n) k + a)) k' j = if Nat.eqb k' k then get (b_coords (hom_of S n k d)) j a else 0.
Proof.
  intros Hk Ha j. unfold part, fam_gen. cbn [fst snd]. rewrite in_block_pos by auto. destruct (Nat.eqb_spec k' k) as [->|Hne]; [|rewrite andb_false_r; reflexivity].
  destruct (Nat.ltb_spec k (length (level n0 nerve n))) as [L|L]; [|unfold lev in Hk; lia]. cbn [andb]. f_equal. lia.
Qed.

Lemma comb_part n k c j : (k < length (lev n))%nat ->
  part (fun x => Zsum (length (row_bars n)) (fun h => c h * fam_gen n h x)) k j = Zsum (famlen n k) (fun a => c (start (famlen n) k + a)%nat * get (b_coords (hom_of S n k d)) j a).
Proof.
  intros Hk. unfold part. rewrite row_bars_length. rewrite (Zsum_block (famlen n) _ k); auto.
  - apply Zsum_ext. intros a Ha. pose proof (gen_part n k a k Hk Ha j) as E. unfold part in E. rewrite E, Nat.eqb_refl. reflexivity.
  - intros h Hh Hb. unfold fam_gen. cbn [fst snd]. rewrite Hb, andb_false_r. ring.
Qed.

Lemma gen_out n h k j : (length (lev n) <= k)%nat -> fam_gen n h (k, j) = 0.
Proof. intros Hk. unfold fam_gen. cbn [fst snd]. destruct (Nat.ltb_spec k (length (level n0 nerve n))) as [L|L]; [unfold lev in Hk; lia|]. reflexivity. Qed.

Lemma comb_out n N c k j : (length (lev n) <= k)%nat -> Zsum N (fun h => c h * fam_gen n h (k, j)) = 0.
Proof. intros Hk. apply Zsum_0. intros h _. rewrite gen_out by auto. ring. Qed.

(** *** Spaces of families *)
Lemma fam_sub (L : nat -> nat -> Z -> (nat -> Z) -> Prop) n r : (forall k, Spec_Bars.subspace p (L n k r)) ->
  Spec_Bars.subspace p (fun v => (forall k j, (length (lev n) <= k)%nat -> v (k, j) mod p = 0) /\ forall k, (k < length (lev n))%nat -> L n k r (part v k)).
Proof.
  intros HL N c b v Hb Hv. split.
  - intros k j Hk. rewrite Hv. apply iff0. apply Zsum_cong0. intros t Ht. destruct (Hb t Ht) as [H _]. specialize (H k j Hk). apply iff0 in H. rewrite H. apply cong_eq. ring.
  - intros k Hk. apply (HL k N c (fun t => part (b t) k)).
    + intros t Ht. apply Hb; auto.
    + intros i. apply Hv.
Qed.

Lemma fam_cycle_sub n r : Spec_Bars.subspace p (fam_cycle p Dist IN n0 nerve S d n r).
Proof. apply (fam_sub (fun n k r => local_cycle p Dist IN S n d k r)). intros k. apply local_cycle_sub. Qed.
Lemma fam_bounds_sub n r : Spec_Bars.subspace p (fam_bounds p Dist IN n0 nerve S d n r).
Proof. apply (fam_sub (fun n k r => local_bounds p Dist IN S n d k r)). intros k. apply local_bounds_sub. Qed.

Lemma fam_cycle_mono n r s v : r <= s -> fam_cycle p Dist IN n0 nerve S d n r v -> fam_cycle p Dist IN n0 nerve S d n s v.
Proof. intros H [H1 H2]. split; auto. intros k Hk. apply (local_cycle_mono _ _ _ r); auto. Qed.
Lemma fam_bounds_mono n r s v : r <= s -> fam_bounds p Dist IN n0 nerve S d n r v -> fam_bounds p Dist IN n0 nerve S d n s v.
Proof. intros H [H1 H2]. split; auto. intros k Hk. apply (local_bounds_mono _ _ _ r); auto. Qed.
Lemma fam_bounds_cycle n r v : fam_bounds p Dist IN n0 nerve S d n r v -> fam_cycle p Dist IN n0 nerve S d n r v.
Proof. intros [H1 H2]. split; auto. intros k Hk. apply local_bounds_cycle; auto. apply (lev_lt n k). auto. Qed.

(** *** The generators are a persistent basis *)
Lemma fam_pb n : persistent_basis p (fam_cycle p Dist IN n0 nerve S d n) (fam_bounds p Dist IN n0 nerve S d n) max_r (row_bars n) (fam_gen n).
Proof.
  assert (LP : forall k, (k < length (lev n))%nat -> persistent_basis p (local_cycle p Dist IN S n d k) (local_bounds p Dist IN S n d k) max_r (b_bars (hom_of S n k d)) (colv (b_coords (hom_of S n k d)))).
  { intros k Hk. apply loc_pb; auto. apply (lev_lt n k); auto. }
  assert (Bb : forall k a, (k < length (lev n))%nat -> (a < famlen n k)%nat -> bbirth (row_bars n) (start (famlen n) k + a) = bbirth (b_bars (hom_of S n k d)) a /\ bdeath (row_bars n) (start (famlen n) k + a) = bdeath (b_bars (hom_of S n k d)) a).
  { intros k a Hk Ha. unfold bbirth, bdeath. rewrite row_bars_nth by auto. auto. }
  split; [|split].
  - intros x Hx. unfold row_bars in Hx. apply in_concat in Hx. destruct Hx as (l & Hl & Hx). apply in_map_iff in Hl. destruct Hl as (k & <- & Hk). apply in_seq in Hk.
    apply (LP k); auto. unfold lev. lia.
  - intros r Hr. split; [|split].
    + intros h Hh Ha. destruct (row_pos n h Hh) as (k & a & Hk & Hka & ->). destruct (Bb k a Hk Hka) as [E1 E2]. rewrite E1, E2 in Ha. split.
      * intros k' j Hk'. rewrite gen_out by auto. apply Zmod_0_l.
      * intros k' Hk'. destruct (LP k Hk) as (_ & HQ & _). destruct (HQ r Hr) as (HQ1 & _ & _).
        destruct (Nat.eq_dec k' k) as [->|Hne].
        -- apply (sub_ext p _ (colv (b_coords (hom_of S n k d)) a)); [apply local_cycle_sub| |apply HQ1; auto].
           intros j. rewrite gen_part, Nat.eqb_refl by auto. reflexivity.
        -- apply (subs_zero p Hp); [apply local_cycle_sub|]. intros j. rewrite gen_part by auto. destruct (Nat.eqb_spec k' k); [congruence|reflexivity].
    + intros v [Hv0 Hv].
      destruct (choose_fun (fun _ => 0) (length (lev n)) (fun k c => (forall a, ~ (bbirth (b_bars (hom_of S n k d)) a <= r < bdeath (b_bars (hom_of S n k d)) a) -> c a = 0) /\
        local_bounds p Dist IN S n d k r (fun i => part v k i - Zsum (famlen n k) (fun a => c a * colv (b_coords (hom_of S n k d)) a i)))) as (c & Hc).
      { intros k Hk. destruct (LP k Hk) as (_ & HQ & _). destruct (HQ r Hr) as (_ & HQ2 & _). apply HQ2. apply Hv. auto. }
      exists (gather (famlen n) (length (lev n)) c). split.
      * intros h Hh. destruct (Nat.lt_ge_cases h (length (row_bars n))) as [Hl|Hl].
        -- destruct (row_pos n h Hl) as (k & a & Hk & Hka & ->). rewrite gather_pos by auto. apply (Hc k Hk). intros X. apply Hh. destruct (Bb k a Hk Hka) as [-> ->]. exact X.
        -- apply gather_out. rewrite <- row_bars_length. exact Hl.
      * split.
        -- intros k j Hk. rewrite comb_out by auto. rewrite Z.sub_0_r. apply Hv0. auto.
        -- intros k Hk. destruct (Hc k Hk) as [_ Hb]. refine (sub_ext p _ _ _ (local_bounds_sub n d k r) _ Hb). intros j. cbv beta.
           pose proof (comb_part n k (gather (famlen n) (length (lev n)) c) j Hk) as E. unfold part in *. cbv beta. rewrite E. f_equal. apply Zsum_ext. intros a Ha. rewrite gather_pos by auto. reflexivity.
    + intros c Hc [_ Hb] h Hh. destruct (row_pos n h Hh) as (k & a & Hk & Hka & ->). destruct (LP k Hk) as (_ & HQ & _). destruct (HQ r Hr) as (_ & _ & HQ3).
      apply (HQ3 (fun a => if Nat.ltb a (famlen n k) then c (start (famlen n) k + a)%nat else 0)) with (k := a) in Hka as Ha.
      * destruct (Nat.ltb_spec a (famlen n k)); [auto|lia].
      * intros a' Ha'. destruct (Nat.ltb_spec a' (famlen n k)) as [L|L]; auto. apply Hc. destruct (Bb k a' Hk L) as [-> ->]. exact Ha'.
      * refine (sub_ext p _ _ _ (local_bounds_sub n d k r) _ (Hb k Hk)). intros j. rewrite comb_part by auto. apply Zsum_ext. intros a' Ha'.
        destruct (Nat.ltb_spec a' (famlen n k)) as [L|L]; [reflexivity|unfold famlen in *; lia].
  - intros r h Hr Hh Hlt. destruct (row_pos n h Hh) as (k & a & Hk & Hka & ->). destruct (Bb k a Hk Hka) as [_ E2]. rewrite E2 in Hlt. split.
    + intros k' j Hk'. rewrite gen_out by auto. apply Zmod_0_l.
    + intros k' Hk'. destruct (LP k Hk) as (_ & _ & HQ). destruct (Nat.eq_dec k' k) as [->|Hne].
      * apply (sub_ext p _ (colv (b_coords (hom_of S n k d)) a)); [apply local_bounds_sub| |apply HQ; auto].
        intros j. rewrite gen_part, Nat.eqb_refl by auto. reflexivity.
      * apply (subs_zero p Hp); [apply local_bounds_sub|]. intros j. rewrite gen_part by auto. destruct (Nat.eqb_spec k' k); [congruence|reflexivity].
Qed.

(** *** The Cech differential *)
Local Notation fc := (fam_cech IN n0 nerve S d).
Lemma fc_in n v k : (k < length (lev n))%nat -> forall j, part (fc n v) k j = cech_image n0 nerve IN S n d k (part v) j.
Proof. intros Hk j. unfold part at 1, fam_cech. cbn [fst snd]. destruct (Nat.ltb_spec k (length (level n0 nerve n))) as [L|L]; [reflexivity|unfold lev in Hk; lia]. Qed.
Lemma fc_out n v k j : (length (lev n) <= k)%nat -> fc n v (k, j) = 0.
Proof. intros Hk. unfold fam_cech. cbn [fst snd]. destruct (Nat.ltb_spec k (length (level n0 nerve n))) as [L|L]; [unfold lev in Hk; lia|reflexivity]. Qed.

Lemma ci_ext n e k v v' j : (forall s i, (s < length (lev (Datatypes.S n)))%nat -> cong p (v s i) (v' s i)) -> cong p (cech_image n0 nerve IN S n e k v j) (cech_image n0 nerve IN S n e k v' j).
Proof.
  intros H. rewrite (ci_lin p IN n0 nerve S n e k 1 (fun _ => 1) (fun _ => v') v).
  - cbn [Zsum]. apply cong_eq. ring.
  - intros s i Hs _. cbn [Zsum]. rewrite H by exact Hs. apply cong_eq. ring.
Qed.

Lemma ci_zero n e k v j : (forall s i, (s < length (lev (Datatypes.S n)))%nat -> cong p (v s i) 0) -> cong p (cech_image n0 nerve IN S n e k v j) 0.
Proof.
  intros H. rewrite (ci_lin p IN n0 nerve S n e k 0 (fun _ => 0) (fun _ => v) v); [reflexivity|].
  intros s i Hs _. apply H. auto.
Qed.

Lemma fc_lin n N (c : nat -> Z) b v : (forall x, cong p (v x) (Zsum N (fun t => c t * b t x))) -> forall x, cong p (fc n v x) (Zsum N (fun t => c t * fc n (b t) x)).
Proof.
  intros H [k j]. destruct (Nat.lt_ge_cases k (length (lev n))) as [L|L].
  - change (fc n v (k, j)) with (part (fc n v) k j). rewrite fc_in by auto.
    rewrite (ci_lin p IN n0 nerve S n d k N c (fun t => part (b t)) (part v)); [|intros s i _ _; apply H].
    apply cong_eq. apply Zsum_ext. intros t _. change (fc n (b t) (k, j)) with (part (fc n (b t)) k j). rewrite fc_in by auto. reflexivity.
  - rewrite fc_out by auto. apply cong_eq. symmetry. apply Zsum_0. intros t _. rewrite fc_out by auto. ring.
Qed.

Lemma lev_dec n : {lev n = []} + {(n < length nerve)%nat}.
Proof.
  destruct (lev n) as [|x l] eqn:E; [left; auto|right]. apply (lev_lt n 0). rewrite E. cbn. lia.
Qed.

Lemma fc_cycle n r v : fam_cycle p Dist IN n0 nerve S d (Datatypes.S n) r v -> fam_cycle p Dist IN n0 nerve S d n r (fc n v).
Proof.
  intros [Hv0 Hv]. split; [intros k j Hk; rewrite fc_out by auto; apply Zmod_0_l|]. intros k Hk.
  apply (sub_ext p _ (cech_image n0 nerve IN S n d k (part v))); [apply local_cycle_sub|intros j; symmetry; apply fc_in; auto|].
  destruct (lev_dec (Datatypes.S n)) as [El|Hn].
  - apply (subs_zero p Hp); [apply local_cycle_sub|]. intros j. apply cong_eq. apply ci_nil. exact El.
  - split.
    + apply (ci_chain _ _ _ _ _ _ _ _ _ HI S PO n d k r (part v) Hn Hk ltac:(unfold m in Hd; lia)). intros s Hs. apply Hv. auto.
    + destruct d as [|e] eqn:Ee; [exact I|]. intros i. apply iff0.
      rewrite (ci_bd _ _ _ _ _ _ _ _ _ HI S PO n e k (part v) i Hn Hk ltac:(unfold m in Hd; lia)).
      rewrite (ci_zero n e k _ i); [apply cong_eq; ring|]. intros s j Hs. destruct (Hv s Hs) as [_ H]. apply iff0. apply H.
Qed.

Lemma fc_bounds n r v : fam_bounds p Dist IN n0 nerve S d (Datatypes.S n) r v -> fam_bounds p Dist IN n0 nerve S d n r (fc n v).
Proof.
  intros [Hv0 Hv]. split; [intros k j Hk; rewrite fc_out by auto; apply Zmod_0_l|]. intros k Hk.
  apply (sub_ext p _ (cech_image n0 nerve IN S n d k (part v))); [apply local_bounds_sub|intros j; symmetry; apply fc_in; auto|].
  destruct (lev_dec (Datatypes.S n)) as [El|Hn].
  - apply (subs_zero p Hp); [apply local_bounds_sub|]. intros j. apply cong_eq. apply ci_nil. exact El.
  - destruct (choose_fun (fun _ => 0) _ _ Hv) as (w & Hw).
    apply (local_bounds_opp argsort rnd Dist max_r max_dim p IN n0 nerve HI S n d k r (cech_image n0 nerve IN S n (Datatypes.S d) k w)).
    + apply (ci_chain _ _ _ _ _ _ _ _ _ HI S PO n (Datatypes.S d) k r w Hn Hk ltac:(unfold m in Hd; lia)). intros s Hs. apply Hw. auto.
    + intros j. rewrite (ci_bd _ _ _ _ _ _ _ _ _ HI S PO n d k w j Hn Hk Hd).
      rewrite (ci_ext n d k (part v) (fun s => local_bd IN S (Datatypes.S n) d s (w s)) j); [apply cong_eq; ring|].
      intros s i Hs. apply ciff. symmetry. apply Hw. auto.
Qed.

Lemma fc_fc n r v : fam_cycle p Dist IN n0 nerve S d (Datatypes.S (Datatypes.S n)) r v -> fam_bounds p Dist IN n0 nerve S d n r (fc n (fc (Datatypes.S n) v)).
Proof.
  intros _. apply (subs_zero p Hp); [apply fam_bounds_sub|]. intros [k j].
  destruct (Nat.lt_ge_cases k (length (lev n))) as [L|L]; [|rewrite fc_out by auto; reflexivity].
  change (fc n (fc (Datatypes.S n) v) (k, j)) with (part (fc n (fc (Datatypes.S n) v)) k j). rewrite fc_in by auto.
  rewrite (ci_ext n d k _ (fun s => cech_image n0 nerve IN S (Datatypes.S n) d s (part v)) j); [|intros s i Hs; rewrite fc_in by auto; reflexivity].
  destruct (lev_dec (Datatypes.S (Datatypes.S n))) as [El|Hn].
  - apply ci_zero. intros s i _. apply cong_eq. apply ci_nil. exact El.
  - apply (ci_ci _ _ _ _ _ _ _ _ _ HI S PO n d k (part v) j Hn L ltac:(unfold m in Hd; lia)).
Qed.
End Fam.
End Rows.
