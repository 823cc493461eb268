(** * The second page in terms of simplices of the cloud *)
From Verif Require Import Base ListX SortX Lin Gauss_model Gauss_arith Basis_model PH_model PH_lin PH_props Simp_model Spec_Simp Simp_lists Simp_diff Simp_props
  Spec_PH Spec_Rips Rips_bd Rips_chain Rips_props LC_model Spec_LC LC_props SS_model Spec_SS SS_inv SS_page SS_cech SS_lift SS_zig SS_first SS_fplift SS_double
  IK_lin IK_abs Spec_Bars Bars MPH_bars Bars_complex Spec_E2 SS_rows SS_glue SS_zero Spec_Cech.
From Coq Require Import Sorted Permutation Znumtheory.
Local Open Scope Z_scope.

Lemma on_simplices_scale L a v s : on_simplices L (fun j => a * v j) s = a * on_simplices L v s.
Proof. unfold on_simplices. rewrite <- Zsum_scale. apply Zsum_ext. intros i _. destruct (list_eq_dec _ _ _); ring. Qed.

Section Cloud.
Variables (argsort : list Z -> list nat) (rnd : Z -> Z) (Dist : list (list Z)) (max_r max_dim p : Z)
  (IN : list (list (list nat))) (n0 : nat) (nerve : list (list simplex)).
Hypothesis HI : mv_input argsort Dist max_r max_dim p IN n0 nerve.
Variable S : ss.
Hypothesis PO : page_ok argsort rnd Dist max_r max_dim p IN n0 nerve S.
Let m := Z.to_nat max_dim.
Let Hp := mv_prime _ _ _ _ _ _ _ _ HI.
Let lev n := level n0 nerve n.
Let G := simplices IN S.
Let N := length Dist.
Let p1 : 1 < p. Proof. destruct Hp. lia. Qed.
Let p_pos : 0 < p. Proof. lia. Qed.
Let iff0 a : a mod p = 0 <-> cong p a 0. Proof. apply mod_cong_0. exact p_pos. Qed.
Let ciff a b : cong p a b <-> a mod p = b mod p. Proof. symmetry. apply (cong_mod_iff p _ _ p_pos). Qed.
Let GN' n k d := GN argsort rnd Dist max_r max_dim p IN n0 nerve HI S PO n k d.
Let GI' n k d := GI argsort rnd Dist max_r max_dim p IN n0 nerve HI S PO n k d.

(** ** One local complex *)
Section One.
Variables (n k : nat).
Hypothesis Hn : (n < length nerve)%nat.
Hypothesis Hk : (k < length (level n0 nerve n))%nat.
Notation K r := (rips_in Dist IN n k r).

Definition pull (e : nat) (c : list nat -> Z) (j : nat) : Z := if Nat.ltb j (length (simplices IN S n k e)) then c (nth j (simplices IN S n k e) []) else 0.

Lemma push_chain e r v : (e <= m)%nat -> local_chain p Dist IN S n e k r v -> s_chain p (K r) e (on_simplices (G n k e) v).
Proof.
  intros He Hv s Hs. destruct (on_simplices_cases (G n k e) v s (GN' n k e Hn Hk)) as [(i & Hi & E & Ei)|[_ E]].
  - rewrite Ei in Hs. destruct (Hv i Hs) as [_ H]. fold G in H. rewrite E in H. split; auto.
    assert (HT : In s (G n k e)) by (rewrite <- E; apply nth_In; auto). apply (GI' n k e s Hn Hk He) in HT. apply HT.
  - rewrite E, Zmod_0_l in Hs. congruence.
Qed.

Lemma pull_chain e r c : s_chain p (K r) e c -> local_chain p Dist IN S n e k r (pull e c).
Proof.
  intros Hc j Hj. unfold pull in Hj. destruct (Nat.ltb_spec j (length (simplices IN S n k e))); [|rewrite Zmod_0_l in Hj; congruence].
  split; auto. apply (Hc _ Hj).
Qed.

Lemma push_pull e r c s : r < max_r -> (e <= m)%nat -> s_chain p (K r) e c -> cong p (on_simplices (G n k e) (pull e c) s) (c s).
Proof.
  intros Hr He Hc. destruct (on_simplices_cases (G n k e) (pull e c) s (GN' n k e Hn Hk)) as [(i & Hi & E & ->)|[Hno ->]].
  - unfold pull. fold G. apply Nat.ltb_lt in Hi. rewrite Hi, E. reflexivity.
  - symmetry. apply iff0. destruct (Z.eq_dec (c s mod p) 0) as [H|H]; auto. exfalso. apply Hno. destruct (Hc s H) as [H1 H2].
    apply (GI' n k e s Hn Hk He). split; auto. apply (rips_clique argsort Dist max_r max_dim p IN n0 nerve HI S e r s Hr H1).
Qed.

Lemma push_bd e w t : (e < m)%nat -> increasing t -> cong p (simplicial_bd N (on_simplices (G n k (Datatypes.S e)) w) t) (dsign e * on_simplices (G n k e) (local_bd IN S n e k w) t).
Proof.
  intros Hd Ht. rewrite (simplicial_bd_sum N); [|apply GN'; auto|auto|].
  2:{ intros s Hs. apply (GI' n k (Datatypes.S e) s Hn Hk ltac:(fold m; lia)) in Hs. destruct Hs as ((_ & A & B & _) & _). auto. }
  destruct (on_simplices_cases (G n k e) (local_bd IN S n e k w) t (GN' n k e Hn Hk)) as [(j & Hj & E & ->)|[Hno ->]].
  - assert (X : cong p (local_bd IN S n e k w j) (dsign e * Zsum (length (G n k (Datatypes.S e))) (fun i => bdc (nth j (G n k e) []) (nth i (G n k (Datatypes.S e)) []) * w i)))
      by (apply (vbd_bdc _ _ _ _ _ _ _ _ _ HI S PO n e k w j Hn Hk Hd Hj)).
    rewrite X, E, Z.mul_assoc, dsign_sq. apply cong_eq. ring.
  - rewrite Z.mul_0_r. apply Zsum_cong0. intros i Hi. assert (X : bdc t (nth i (G n k (Datatypes.S e)) []) = 0) by (apply (bdc_outside _ _ _ _ _ _ _ _ _ HI S PO n e k t i Hn Hk Hd Hno Hi)).
    rewrite X. apply cong_eq. ring.
Qed.

Lemma G_incr e j : (e <= m)%nat -> (j < length (G n k e))%nat -> increasing (nth j (G n k e) []) /\ length (nth j (G n k e) []) = Datatypes.S e.
Proof.
  intros He Hj. assert (H : In (nth j (G n k e) []) (G n k e)) by (apply nth_In; auto). apply (GI' n k e _ Hn Hk He) in H.
  destruct H as ((A & B & _) & _). auto.
Qed.

Lemma push_cycle e r v : (e <= m)%nat -> local_cycle p Dist IN S n e k r v -> s_cycle p N (K r) e (on_simplices (G n k e) v).
Proof.
  intros He [Hc Hb]. split; [apply push_chain; auto|]. intros He0 t Ht _. destruct e as [|e]; [lia|]. apply iff0. rewrite push_bd by (auto; lia).
  rewrite (on_simplices_cong p _ _ (fun _ => 0)); [|intros i _; apply iff0; apply Hb]. apply cong_eq. unfold on_simplices. rewrite Zsum_0; [ring|]. intros i _. destruct (list_eq_dec _ _ _); auto.
Qed.

Lemma cycle_back e r v : (e <= m)%nat -> local_chain p Dist IN S n e k r v -> s_cycle p N (K r) e (on_simplices (G n k e) v) -> local_cycle p Dist IN S n e k r v.
Proof.
  intros He Hv [_ Hb]. split; auto. destruct e as [|e]; auto. intros i. destruct (Nat.lt_ge_cases i (length (G n k e))) as [Hi|Hi].
  - destruct (G_incr e i ltac:(lia) Hi) as [Ht Hl]. specialize (Hb ltac:(lia) _ Ht Hl). apply iff0 in Hb. rewrite push_bd in Hb by (auto; lia).
    rewrite on_simplices_nth in Hb by (auto; apply GN'; auto). apply iff0. transitivity (dsign e * (dsign e * local_bd IN S n e k v i)).
    + rewrite Z.mul_assoc, dsign_sq. apply cong_eq. ring.
    + rewrite Hb. apply cong_eq. ring.
  - assert (X : local_bd IN S n e k v i = 0) by (apply (vbd_out _ _ _ _ _ _ _ _ _ S PO n e k v i Hn Hk ltac:(fold m; lia) Hi)). rewrite X. apply Zmod_0_l.
Qed.

Lemma push_bounds e r v : (e < m)%nat -> local_bounds p Dist IN S n e k r v -> s_bounds p N (K r) e (on_simplices (G n k e) v).
Proof.
  intros He Hv. assert (Hcy : local_cycle p Dist IN S n e k r v) by (apply (local_bounds_cycle argsort rnd Dist max_r max_dim p IN n0 nerve HI S PO n k e Hn Hk He r v Hv)).
  split; [apply push_chain; [lia|apply Hcy]|]. destruct Hv as (w & Hw & E).
  exists (on_simplices (G n k (Datatypes.S e)) (fun j => dsign e * w j)). split.
  - apply push_chain; [lia|]. intros j Hj. apply Hw. intros X. apply Hj. apply iff0. apply iff0 in X. rewrite X. apply cong_eq. ring.
  - intros t Ht _. apply ciff. rewrite push_bd by auto. 
    rewrite (on_simplices_cong p _ _ (fun j => dsign e * v j)).
    + rewrite (on_simplices_scale (G n k e) (dsign e) v t). rewrite Z.mul_assoc, dsign_sq. apply cong_eq. ring.
    + intros j _. rewrite (local_bd_lin p IN S n e k 1 (fun _ => dsign e) (fun _ => w)); [|intros i; apply cong_eq; cbn [Zsum]; ring].
      cbn [Zsum]. rewrite (proj2 (ciff _ _) (E j)). apply cong_eq. ring.
Qed.

Lemma bounds_back e r v : r < max_r -> (e < m)%nat -> local_chain p Dist IN S n e k r v -> s_bounds p N (K r) e (on_simplices (G n k e) v) -> local_bounds p Dist IN S n e k r v.
Proof.
  intros Hr He Hv (_ & w & Hw & E). exists (fun j => dsign e * pull (Datatypes.S e) w j). split.
  - intros j Hj. apply (pull_chain (Datatypes.S e) r w Hw). intros X. apply Hj. apply iff0. apply iff0 in X. rewrite X. apply cong_eq. ring.
  - intros j. apply ciff. rewrite (local_bd_lin p IN S n e k 1 (fun _ => dsign e) (fun _ => pull (Datatypes.S e) w)); [|intros i; apply cong_eq; cbn [Zsum]; ring].
    cbn [Zsum]. destruct (Nat.lt_ge_cases j (length (G n k e))) as [Hj|Hj].
    + destruct (G_incr e j ltac:(lia) Hj) as [Ht Hl]. specialize (E _ Ht Hl). apply ciff in E. rewrite on_simplices_nth in E by (auto; apply GN'; auto).
      rewrite <- E. rewrite <- (simplicial_bd_cong p N _ _ _ (fun s => push_pull (Datatypes.S e) r w s Hr He Hw)). rewrite push_bd by auto.
      rewrite on_simplices_nth by (auto; apply GN'; auto). apply cong_eq. ring.
    + assert (X : local_bd IN S n e k (pull (Datatypes.S e) w) j = 0) by (apply (vbd_out _ _ _ _ _ _ _ _ _ S PO n e k _ j Hn Hk He Hj)). rewrite X.
      assert (Y : v j mod p = 0). { destruct (Z.eq_dec (v j mod p) 0) as [H|H]; auto. destruct (Hv j H) as [H' _]. fold G in H'. lia. }
      apply iff0 in Y. rewrite Y. apply cong_eq. ring.
Qed.
End One.

(** ** Families *)
Section Fam.
Variable d : nat.
Hypothesis Hd : (d < m)%nat.
Hypothesis Htop : level n0 nerve (length nerve) = [].

Lemma lev_in n k : (k < length (level n0 nerve n))%nat -> (n < length nerve)%nat.
Proof. apply (lev_lt argsort Dist max_r max_dim p IN n0 nerve HI S d Hd Htop). Qed.

Definition pushf (n : nat) (v : nat * nat -> Z) (x : nat * list nat) : Z :=
  if Nat.ltb (fst x) (length (level n0 nerve n)) then on_simplices (simplices IN S n (fst x) d) (part v (fst x)) (snd x) else 0.
Definition pullf (n : nat) (w : nat * list nat -> Z) (x : nat * nat) : Z :=
  if Nat.ltb (fst x) (length (level n0 nerve n)) then pull n (fst x) d (fun s => w (fst x, s)) (snd x) else 0.

Lemma pushf_in n v k s : (k < length (level n0 nerve n))%nat -> pushf n v (k, s) = on_simplices (simplices IN S n k d) (part v k) s.
Proof. intros Hk. unfold pushf. cbn [fst snd]. apply Nat.ltb_lt in Hk. rewrite Hk. reflexivity. Qed.
Lemma pushf_out n v k s : (length (level n0 nerve n) <= k)%nat -> pushf n v (k, s) = 0.
Proof. intros Hk. unfold pushf. cbn [fst snd]. apply Nat.ltb_ge in Hk. rewrite Hk. reflexivity. Qed.

Lemma pushf_lin n M (c : nat -> Z) b x : pushf n (fun y => Zsum M (fun t => c t * b t y)) x = Zsum M (fun t => c t * pushf n (b t) x).
Proof.
  unfold pushf. destruct (Nat.ltb _ _); [|rewrite Zsum_0; [reflexivity|intros; ring]].
  apply (on_simplices_lin (simplices IN S n (fst x) d) M c (fun t => part (b t) (fst x)) (snd x)).
Qed.
Lemma pushf_cong n u v x : (forall y, cong p (u y) (v y)) -> cong p (pushf n u x) (pushf n v x).
Proof. intros H. unfold pushf. destruct (Nat.ltb _ _); [|reflexivity]. apply on_simplices_cong. intros i _. apply H. Qed.
Lemma pushf_sub n u v x : pushf n (fun y => u y - v y) x = pushf n u x - pushf n v x.
Proof. unfold pushf. destruct (Nat.ltb _ _); [|ring]. apply on_simplices_sub. Qed.

Lemma pushf_scale n a v x : pushf n (fun y => a * v y) x = a * pushf n v x.
Proof. unfold pushf. destruct (Nat.ltb _ _); [|ring]. apply on_simplices_scale. Qed.

(** Subspaces of families. *)
Lemma family_sub n (P : nat -> (list nat -> Z) -> Prop) : (forall k, Spec_Bars.subspace p (P k)) -> Spec_Bars.subspace p (family p n0 nerve n P).
Proof.
  intros HP M c b v Hb Hv. split.
  - intros k s Hk. rewrite Hv. apply iff0. apply Zsum_cong0. intros t Ht. destruct (Hb t Ht) as [H _]. specialize (H k s Hk). apply iff0 in H. rewrite H. apply cong_eq. ring.
  - intros k Hk. apply (HP k M c (fun t s => b t (k, s))); [intros t Ht; apply (Hb t Ht); auto|]. intros s. apply Hv.
Qed.
Lemma s_cycle_sub' K : Spec_Bars.subspace p (s_cycle p N K d).
Proof.
  intros M c b v Hb Hv. split.
  - apply (s_chain_sub argsort Dist max_r max_dim p IN n0 nerve HI S K d M c b); auto. intros t Ht. apply (Hb t Ht).
  - intros H0 t Ht Hl. apply iff0. rewrite (sbd_lin p N M c b v t); [|intros s; apply ciff; apply Hv].
    apply Zsum_cong0. intros i Hi. destruct (Hb i Hi) as [_ H]. specialize (H H0 t Ht Hl). apply iff0 in H. rewrite H. apply cong_eq. ring.
Qed.
Lemma cc_sub n r : Spec_Bars.subspace p (cech_cycle p Dist IN n0 nerve d n r).
Proof. apply family_sub. intros k. apply s_cycle_sub'. Qed.
Lemma cb_sub n r : Spec_Bars.subspace p (cech_bounds p Dist IN n0 nerve d n r).
Proof. apply family_sub. intros k. apply (s_bounds_sub argsort Dist max_r max_dim p IN n0 nerve HI S). Qed.

Lemma subs_scale {X} (P : (X -> Z) -> Prop) a v : Spec_Bars.subspace p P -> P v -> P (fun x => a * v x).
Proof. intros HP Hv. apply (HP 1%nat (fun _ => a) (fun _ => v)); [intros; auto|]. intros i. apply ciff. apply cong_eq. cbn [Zsum]. ring. Qed.

Lemma pushf_cycle n r v : fam_cycle p Dist IN n0 nerve S d n r v -> cech_cycle p Dist IN n0 nerve d n r (pushf n v).
Proof.
  intros [H0 H]. split; [intros k s Hk; rewrite pushf_out by auto; apply Zmod_0_l|]. intros k Hk.
  apply (subs_cong p Hp _ (on_simplices (simplices IN S n k d) (part v k))); [apply s_cycle_sub'|intros s; rewrite pushf_in by auto; reflexivity|].
  apply push_cycle; auto; [apply (lev_in n k Hk)|lia].
Qed.
Lemma pushf_bounds n r v : fam_bounds p Dist IN n0 nerve S d n r v -> cech_bounds p Dist IN n0 nerve d n r (pushf n v).
Proof.
  intros [H0 H]. split; [intros k s Hk; rewrite pushf_out by auto; apply Zmod_0_l|]. intros k Hk.
  apply (subs_cong p Hp _ (on_simplices (simplices IN S n k d) (part v k)));
    [apply (s_bounds_sub argsort Dist max_r max_dim p IN n0 nerve HI S)|intros s; rewrite pushf_in by auto; reflexivity|].
  apply push_bounds; auto. apply (lev_in n k Hk).
Qed.
Lemma fam_bounds_back n r v : r < max_r -> fam_cycle p Dist IN n0 nerve S d n r v -> cech_bounds p Dist IN n0 nerve d n r (pushf n v) -> fam_bounds p Dist IN n0 nerve S d n r v.
Proof.
  intros Hr [H0 H] [_ Hb]. split; auto. intros k Hk. apply bounds_back; auto; [apply (lev_in n k Hk)|apply H; auto|].
  apply (subs_cong p Hp _ (fun s => pushf n v (k, s))); [apply (s_bounds_sub argsort Dist max_r max_dim p IN n0 nerve HI S)|intros s; rewrite pushf_in by auto; reflexivity|].
  apply Hb. auto.
Qed.

Lemma push_pullf n r w x : r < max_r -> cech_cycle p Dist IN n0 nerve d n r w -> cong p (pushf n (pullf n w) x) (w x).
Proof.
  intros Hr [H0 H]. destruct x as [k s]. destruct (Nat.lt_ge_cases k (length (level n0 nerve n))) as [Hk|Hk].
  - rewrite pushf_in by auto. rewrite (on_simplices_cong p _ _ (pull n k d (fun s => w (k, s)))).
    + apply (push_pull n k (lev_in n k Hk) Hk d r (fun s => w (k, s)) s Hr ltac:(lia)). apply (H k Hk).
    + intros i _. unfold part, pullf. cbn [fst snd]. apply Nat.ltb_lt in Hk. rewrite Hk. reflexivity.
  - rewrite pushf_out by auto. symmetry. apply iff0. apply H0. auto.
Qed.
Lemma pullf_cycle n r w : r < max_r -> cech_cycle p Dist IN n0 nerve d n r w -> fam_cycle p Dist IN n0 nerve S d n r (pullf n w).
Proof.
  intros Hr Hw. assert (E : forall k, (k < length (level n0 nerve n))%nat -> forall j, part (pullf n w) k j = pull n k d (fun s => w (k, s)) j).
  { intros k Hk j. unfold part, pullf. cbn [fst snd]. apply Nat.ltb_lt in Hk. rewrite Hk. reflexivity. }
  split; [intros k j Hk; unfold pullf; cbn [fst]; apply Nat.ltb_ge in Hk; rewrite Hk; apply Zmod_0_l|]. intros k Hk.
  apply cycle_back; auto; [apply (lev_in n k Hk)|lia| |].
  - apply (subs_cong p Hp _ (pull n k d (fun s => w (k, s)))); [apply (local_chain_sub argsort Dist max_r max_dim p IN n0 nerve HI S)|intros j; rewrite E by auto; reflexivity|].
    apply pull_chain. apply (proj2 Hw k Hk).
  - apply (subs_cong p Hp _ (fun s => w (k, s))); [apply s_cycle_sub'| |apply (proj2 Hw k Hk)].
    intros s. rewrite <- (push_pullf n r w (k, s) Hr Hw). rewrite pushf_in by auto. reflexivity.
Qed.

(** The Cech differentials agree up to a sign. *)
Definition esign (n : nat) : Z := (-1) ^ Z.of_nat d * match n with O => -1 | Datatypes.S _ => 1 end.
Lemma esign_sq n : esign n * esign n = 1.
Proof.
  unfold esign. assert (E : (-1) ^ Z.of_nat d * (-1) ^ Z.of_nat d = 1).
  { rewrite <- Z.pow_mul_l. apply Z.pow_1_l. lia. }
  destruct n; [transitivity ((-1) ^ Z.of_nat d * (-1) ^ Z.of_nat d); [ring|exact E]|transitivity ((-1) ^ Z.of_nat d * (-1) ^ Z.of_nat d); [ring|exact E]].
Qed.

Lemma pushf_cech n w x : pushf n (fam_cech IN n0 nerve S d n w) x = esign n * cech n0 nerve n (pushf (Datatypes.S n) w) x.
Proof.
  destruct x as [k s]. destruct (Nat.lt_ge_cases k (length (level n0 nerve n))) as [Hk|Hk].
  2:{ rewrite pushf_out by auto. unfold cech. cbn [fst]. apply Nat.ltb_ge in Hk. rewrite Hk. ring. }
  rewrite pushf_in by auto.
  assert (E1 : on_simplices (simplices IN S n k d) (part (fam_cech IN n0 nerve S d n w) k) s = on_simplices (simplices IN S n k d) (cech_image n0 nerve IN S n d k (part w)) s).
  { unfold on_simplices. apply Zsum_ext. intros i Hi. destruct (list_eq_dec _ _ _); auto. unfold part, fam_cech. cbn [fst snd]. apply Nat.ltb_lt in Hk. rewrite Hk. reflexivity. }
  rewrite E1. clear E1. unfold cech. cbn [fst snd]. pose proof Hk as Hk'. apply Nat.ltb_lt in Hk'. rewrite Hk'.
  rewrite (Zsum_ext (length (level n0 nerve (Datatypes.S n))) (fun t => coeff (nth k (level n0 nerve n) []) (nth t (level n0 nerve (Datatypes.S n)) []) * pushf (Datatypes.S n) w (t, s))
    (fun t => coeff (nth k (level n0 nerve n) []) (nth t (level n0 nerve (Datatypes.S n)) []) * on_simplices (simplices IN S (Datatypes.S n) t d) (part w t) s))
    by (intros t Ht; rewrite pushf_in by auto; reflexivity).
  destruct (Nat.lt_ge_cases 0 (length (level n0 nerve (Datatypes.S n)))) as [Hl|Hl].
  - pose proof (lev_in (Datatypes.S n) 0 Hl) as Hn.
    assert (X : on_simplices (simplices IN S n k d) (cech_image n0 nerve IN S n d k (part w)) s = (-1) ^ Z.of_nat d * Zsum (length (level n0 nerve (Datatypes.S n))) (fun t => nerve_bd n0 nerve n k t * on_simplices (simplices IN S (Datatypes.S n) t d) (part w t) s)).
    { apply (ci_global _ _ _ _ _ _ _ _ _ HI S PO n d k (part w) s Hn Hk). fold m. lia. }
    rewrite X. unfold esign. rewrite <- Z.mul_assoc. f_equal. rewrite <- Zsum_scale. apply Zsum_ext. intros t Ht. unfold nerve_bd. ring.
  - assert (E : level n0 nerve (Datatypes.S n) = []) by (destruct (level n0 nerve (Datatypes.S n)); [reflexivity|cbn in Hl; lia]).
    rewrite E. cbn [length Zsum]. rewrite Z.mul_0_r. unfold on_simplices. apply Zsum_0. intros i Hi. destruct (list_eq_dec _ _ _); auto.
    unfold cech_image. rewrite E. cbn [length Zsum]. ring.
Qed.

Lemma cech_scale n a w x : cech n0 nerve n (fun y => a * w y) x = a * cech n0 nerve n w x.
Proof. unfold cech. destruct (Nat.ltb _ _); [|ring]. rewrite <- Zsum_scale. apply Zsum_ext. intros; ring. Qed.
Lemma cech_cong n u v x : (forall y, cong p (u y) (v y)) -> cong p (cech n0 nerve n u x) (cech n0 nerve n v x).
Proof. intros H. unfold cech. destruct (Nat.ltb _ _); [|reflexivity]. apply Zsum_cong. intros t _. rewrite H. reflexivity. Qed.
Lemma cech_lin n M (c : nat -> Z) b v : (forall x, cong p (v x) (Zsum M (fun t => c t * b t x))) -> forall x, cong p (cech n0 nerve n v x) (Zsum M (fun t => c t * cech n0 nerve n (b t) x)).
Proof.
  intros H x. rewrite (cech_cong n _ _ x H). unfold cech. destruct (Nat.ltb _ _); [|apply cong_eq; rewrite Zsum_0; auto; intros; ring].
  apply cong_eq. rewrite (Zsum_ext _ _ (fun t => Zsum M (fun u => c u * (coeff (nth (fst x) (level n0 nerve n) []) (nth t (level n0 nerve (Datatypes.S n)) []) * b u (t, snd x))))).
  - rewrite Zsum_swap. apply Zsum_ext. intros u _. apply Zsum_scale.
  - intros t _. rewrite <- Zsum_scale. apply Zsum_ext. intros; ring.
Qed.

Lemma rips_in_mono n k r s e T : r <= s -> rips_in Dist IN n k r e T -> rips_in Dist IN n k s e T.
Proof. intros Hrs [[(H1 & H2 & H3 & H4) H5] H6]. split; auto. split; [|lia]. repeat split; auto. intros u v Hu Hv Huv. specialize (H4 u v Hu Hv Huv). lia. Qed.
Lemma sc_mono n k r s e c : r <= s -> s_chain p (rips_in Dist IN n k r) e c -> s_chain p (rips_in Dist IN n k s) e c.
Proof. intros Hrs H T HT. apply (rips_in_mono n k r); auto. Qed.
Lemma cc_mono n r s v : r <= s -> cech_cycle p Dist IN n0 nerve d n r v -> cech_cycle p Dist IN n0 nerve d n s v.
Proof. intros Hrs [H0 H]. split; auto. intros k Hk. destruct (H k Hk) as [A B]. split; auto. apply (sc_mono n k r); auto. Qed.
Lemma cb_mono n r s v : r <= s -> cech_bounds p Dist IN n0 nerve d n r v -> cech_bounds p Dist IN n0 nerve d n s v.
Proof.
  intros Hrs [H0 H]. split; auto. intros k Hk. destruct (H k Hk) as (A & w & B & C). split; [apply (sc_mono n k r); auto|]. exists w. split; auto. apply (sc_mono n k r); auto.
Qed.

Lemma e2_bounds_sub n r : Spec_Bars.subspace p (e2_bounds p Dist IN n0 nerve d n r).
Proof.
  intros M c b v Hb Hv. split; [apply (cc_sub n r M c b); auto; intros t Ht; apply (Hb t Ht)|].
  assert (Hw : forall t, (t < M)%nat -> exists w, cech_cycle p Dist IN n0 nerve d (Datatypes.S n) r w /\ cech_bounds p Dist IN n0 nerve d n r (fun x => b t x - cech n0 nerve n w x))
    by (intros t Ht; apply (Hb t Ht)).
  destruct (choose_fun _ _ _ _ _ _ _ _ HI S (fun _ : nat * list nat => 0) M _ Hw) as (w & Hw').
  exists (fun x => Zsum M (fun t => c t * w t x)). split.
  - apply (cc_sub (Datatypes.S n) r M c w); [intros t Ht; apply (Hw' t Ht)|]. intros; reflexivity.
  - apply (cb_sub n r M c (fun t x => b t x - cech n0 nerve n (w t) x)); [intros t Ht; apply (Hw' t Ht)|]. intros x. apply ciff.
    rewrite (proj2 (ciff _ _) (Hv x)). rewrite (cech_lin n M c w _ (fun y => cong_eq p _ _ eq_refl) x). apply cong_eq. rewrite <- Zsum_sub. apply Zsum_ext. intros; ring.
Qed.

Lemma page2_cycle_sub n r : Spec_Bars.subspace p (page2_cycle p Dist IN n0 nerve S d n r).
Proof.
  intros M c b v Hb Hv. split; [apply (fam_cycle_sub argsort Dist max_r max_dim p IN n0 nerve HI S d n r M c b); auto; intros t Ht; apply (Hb t Ht)|].
  destruct n as [|n']; auto. apply (fam_bounds_sub argsort Dist max_r max_dim p IN n0 nerve HI S d n' r M c (fun t => fam_cech IN n0 nerve S d n' (b t))).
  - intros t Ht. apply (Hb t Ht).
  - intros x. apply ciff. eapply fc_lin; try eassumption. intros y. apply ciff. apply Hv.
Qed.

(** The second page of the specification has the barcode of the second page in the order of the code. *)
Theorem e2_barcode n bars : barcode p (page2_cycle p Dist IN n0 nerve S d n) (page2_bounds p Dist IN n0 nerve S d n) max_r bars ->
  barcode p (e2_cycle p Dist IN n0 nerve d n) (e2_bounds p Dist IN n0 nerve d n) max_r bars.
Proof.
  assert (Cn : forall n' r v, cech_bounds p Dist IN n0 nerve d n' r (pushf n' (fam_cech IN n0 nerve S d n' v)) <-> cech_bounds p Dist IN n0 nerve d n' r (cech n0 nerve n' (pushf (Datatypes.S n') v))).
  { intros n' r v. split; intros H.
    - apply (subs_cong p Hp _ (fun x => esign n' * pushf n' (fam_cech IN n0 nerve S d n' v) x)); [apply cb_sub| |apply subs_scale; [apply cb_sub|exact H]].
      intros x. rewrite pushf_cech, Z.mul_assoc, esign_sq. apply cong_eq. ring.
    - apply (subs_cong p Hp _ (fun x => esign n' * cech n0 nerve n' (pushf (Datatypes.S n') v) x)); [apply cb_sub| |apply subs_scale; [apply cb_sub|exact H]].
      intros x. rewrite pushf_cech. reflexivity. }
  apply (barcode_map p _ _ _ _ (pushf n) max_r bars Hp).
  - intros r _. apply page2_cycle_sub.
  - intros r _. apply e2_bounds_sub.
  - intros r s v Hrs [H1 H2]. split; [apply (fam_cycle_mono Dist p IN n0 nerve S d n r); [lia|auto]|]. destruct n; auto. apply (fam_bounds_mono Dist p IN n0 nerve S d n r); [lia|auto].
  - intros r s v Hrs [H1 (w & H2 & H3)]. split; [apply (cc_mono n r); [lia|auto]|]. exists w. split; [apply (cc_mono _ r); [lia|auto]|apply (cb_mono _ r); [lia|auto]].
  - intros M c b i. apply cong_eq. apply pushf_lin.
  - intros u v H i. apply pushf_cong. auto.
  - intros r v Hr [H1 H2]. split; [apply pushf_cycle; auto|]. destruct n as [|n']; auto. apply Cn. apply pushf_bounds. auto.
  - intros r v Hr [H1 (w & H2 & H3)]. split; [apply pushf_cycle; auto|]. exists (fun x => esign n * pushf (Datatypes.S n) w x). split.
    + apply subs_scale; [apply cc_sub|apply pushf_cycle; auto].
    + apply (subs_cong p Hp _ (pushf n (fun x => v x - fam_cech IN n0 nerve S d n w x))); [apply cb_sub| |apply pushf_bounds; auto].
      intros x. rewrite pushf_sub, pushf_cech, cech_scale. reflexivity.
  - intros r v Hr [H1 H2] [_ (w & H3 & H4)]. split; auto. exists (fun x => esign n * pullf (Datatypes.S n) w x).
    assert (Hw : fam_cycle p Dist IN n0 nerve S d (Datatypes.S n) r (fun x => esign n * pullf (Datatypes.S n) w x)).
    { apply subs_scale; [apply (fam_cycle_sub argsort Dist max_r max_dim p IN n0 nerve HI S d)|apply pullf_cycle; auto]. }
    split; auto. apply fam_bounds_back; auto.
    + apply (subs_sub p); [apply (fam_cycle_sub argsort Dist max_r max_dim p IN n0 nerve HI S d)|exact H1|]. apply (fc_cycle argsort rnd Dist max_r max_dim p IN n0 nerve HI S PO d Hd Htop). exact Hw.
    + apply (subs_cong p Hp _ (fun x => pushf n v x - cech n0 nerve n w x)); [apply cb_sub| |exact H4]. intros x. rewrite pushf_sub, pushf_cech.
      assert (E : cong p (cech n0 nerve n (pushf (Datatypes.S n) (fun y => esign n * pullf (Datatypes.S n) w y)) x) (esign n * cech n0 nerve n w x)).
      { rewrite <- cech_scale. apply cech_cong. intros y. rewrite <- (push_pullf (Datatypes.S n) r w y Hr H3). rewrite pushf_scale. reflexivity. }
      rewrite E, Z.mul_assoc, esign_sq. apply cong_eq. ring.
  - intros r w Hr [H1 H2]. exists (pullf n w). pose proof (pullf_cycle n r w Hr H1) as HP. split.
    + split; auto. destruct n as [|n']; auto. apply fam_bounds_back; auto; [apply (fc_cycle argsort rnd Dist max_r max_dim p IN n0 nerve HI S PO d Hd Htop); auto|].
      apply Cn. apply (subs_cong p Hp _ (cech n0 nerve n' w)); [apply cb_sub| |exact H2]. intros x. apply cech_cong. intros y. symmetry. apply (push_pullf _ r); auto.
    + apply (subs_zero p Hp); [apply e2_bounds_sub|]. intros x. rewrite (push_pullf n r w x Hr H1). apply cong_eq. ring.
Qed.
End Fam.
End Cloud.
