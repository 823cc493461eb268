(** * The double complex of a cover of which the elements meet at most two at a time *)
From Verif Require Import Base ListX SortX Lin Gauss_model Gauss_arith Basis_model PH_model PH_lin PH_props Simp_model Spec_Simp Simp_lists Simp_diff Simp_props
  Spec_PH Spec_Rips Rips_bd Rips_chain Rips_props LC_model Spec_LC LC_props SS_model Spec_SS SS_inv SS_page SS_cech SS_lift SS_zig SS_first SS_fplift SS_double
  IK_lin IK_abs Spec_Bars Bars MPH_bars Rips_bars Bars_complex Spec_MV Spec_E2 SS_rows SS_glue SS_zero SS_e2 Spec_Ext Ext_props Two_col Spec_Two.
From Coq Require Import Sorted Permutation Znumtheory.
Local Open Scope Z_scope.

Section TwoFam.
Variables (argsort : list Z -> list nat) (rnd : Z -> Z) (Dist : list (list Z)) (max_r max_dim p : Z)
  (IN : list (list (list nat))) (n0 : nat) (nerve : list (list simplex)).
Hypothesis HI : mv_input argsort Dist max_r max_dim p IN n0 nerve.
Variable S : ss.
Hypothesis PO : page_ok argsort rnd Dist max_r max_dim p IN n0 nerve S.
Let m := Z.to_nat max_dim.
Let Hp := mv_prime _ _ _ _ _ _ _ _ HI.
Let HC := mv_cover _ _ _ _ _ _ _ _ HI.
Let G := simplices IN S.
Let p1 : 1 < p. Proof. destruct Hp. lia. Qed.
Let p_pos : 0 < p. Proof. lia. Qed.
Let iff0 a : a mod p = 0 <-> cong p a 0. Proof. apply mod_cong_0. exact p_pos. Qed.
Let ciff a b : cong p a b <-> a mod p = b mod p. Proof. symmetry. apply (cong_mod_iff p _ _ p_pos). Qed.
Hypothesis Hlen : (1 < length nerve)%nat.
Hypothesis Htop : level n0 nerve 2 = [].
Let L0 : length (level n0 nerve 0) = n0. Proof. apply lev0_len. Qed.
Hypothesis Htop' : level n0 nerve (length nerve) = [].

Let k0 k : (k < n0)%nat -> (k < length (level n0 nerve 0))%nat. Proof. rewrite L0. auto. Qed.

(** ** Families of chains *)
Definition FC (e n : nat) (r : Z) (v : nat * nat -> Z) : Prop :=
  (forall k j, (length (level n0 nerve n) <= k)%nat -> v (k, j) mod p = 0) /\
  forall k, (k < length (level n0 nerve n))%nat -> local_chain p Dist IN S n e k r (part v k).
Definition dD (e n : nat) (v : nat * nat -> Z) (x : nat * nat) : Z :=
  if Nat.ltb (fst x) (length (level n0 nerve n)) then local_bd IN S n e (fst x) (part v (fst x)) (snd x) else 0.

Lemma dD_in e n v k : (k < length (level n0 nerve n))%nat -> forall j, dD e n v (k, j) = local_bd IN S n e k (part v k) j.
Proof. intros Hk j. unfold dD. cbn [fst snd]. apply Nat.ltb_lt in Hk. rewrite Hk. reflexivity. Qed.
Lemma dD_out e n v k : (length (level n0 nerve n) <= k)%nat -> forall j, dD e n v (k, j) = 0.
Proof. intros Hk j. unfold dD. cbn [fst snd]. apply Nat.ltb_ge in Hk. rewrite Hk. reflexivity. Qed.

Lemma FC_sub e n r : Spec_Bars.subspace p (FC e n r).
Proof.
  apply (fam_sub argsort Dist max_r max_dim p IN n0 nerve HI S (fun n k r => local_chain p Dist IN S n e k r) n r).
  intros k. apply (local_chain_sub argsort Dist max_r max_dim p IN n0 nerve HI).
Qed.
Lemma FC_mono e n r s v : r <= s -> FC e n r v -> FC e n s v.
Proof. intros H [H1 H2]. split; auto. intros k Hk. apply (local_chain_mono Dist p IN S n e k r); auto. Qed.
Lemma FC_zero_at e n r v k j : FC e n r v -> (length (level n0 nerve n) <= k)%nat \/ (length (G n k e) <= j)%nat -> cong p (v (k, j)) 0.
Proof.
  intros [H1 H2] H. apply iff0. destruct (Nat.lt_ge_cases k (length (level n0 nerve n))) as [L|L]; [|apply H1; auto].
  destruct H as [H|H]; [lia|]. destruct (Z.eq_dec (v (k, j) mod p) 0) as [E|E]; auto. exfalso. destruct (H2 k L j E) as [X _]. fold G in X. lia.
Qed.

Lemma L_dD e n : linear p (dD e n).
Proof.
  assert (X : forall N (c : nat -> Z) b v, (forall x, cong p (v x) (Zsum N (fun k => c k * b k x))) -> forall y, cong p (dD e n v y) (Zsum N (fun k => c k * dD e n (b k) y))).
  { intros N c b v Hv [k j]. destruct (Nat.lt_ge_cases k (length (level n0 nerve n))) as [L|L].
    - rewrite dD_in by auto. rewrite (local_bd_lin p IN S n e k N c (fun t => part (b t) k) (part v k)); [|intros i; apply Hv].
      apply cong_eq. apply Zsum_ext. intros t _. rewrite dD_in by auto. reflexivity.
    - rewrite dD_out by auto. apply cong_eq. symmetry. apply Zsum_0. intros t _. rewrite dD_out by auto. ring. }
  split.
  - intros N c b y. apply X. intros x. reflexivity.
  - intros u v H y. rewrite (X 1%nat (fun _ => 1) (fun _ => v) u); [apply cong_eq; cbn [Zsum]; ring|]. intros x. rewrite H. apply cong_eq. cbn [Zsum]. ring.
Qed.

Lemma fci e n v k : (k < length (level n0 nerve n))%nat -> forall j, part (fam_cech IN n0 nerve S e n v) k j = cech_image n0 nerve IN S n e k (part v) j.
Proof. intros Hk j. unfold part at 1, fam_cech. cbn [fst snd]. apply Nat.ltb_lt in Hk. rewrite Hk. reflexivity. Qed.
Lemma fco e n v k j : (length (level n0 nerve n) <= k)%nat -> fam_cech IN n0 nerve S e n v (k, j) = 0.
Proof. intros Hk. unfold fam_cech. cbn [fst snd]. apply Nat.ltb_ge in Hk. rewrite Hk. reflexivity. Qed.

Let ch e := fam_cech IN n0 nerve S e 0.
Lemma L_ch e : (e <= m)%nat -> linear p (ch e).
Proof.
  intros _. assert (X : forall N (c : nat -> Z) b v, (forall x, cong p (v x) (Zsum N (fun k => c k * b k x))) -> forall y, cong p (ch e v y) (Zsum N (fun k => c k * ch e (b k) y))).
  { intros N c b v H [k j]. unfold ch. destruct (Nat.lt_ge_cases k (length (level n0 nerve 0))) as [L|L].
    - change (fam_cech IN n0 nerve S e 0 v (k, j)) with (part (fam_cech IN n0 nerve S e 0 v) k j). rewrite fci by auto.
      rewrite (ci_lin p IN n0 nerve S 0 e k N c (fun t => part (b t)) (part v)); [|intros s i _ _; apply H].
      apply cong_eq. apply Zsum_ext. intros t _. change (fam_cech IN n0 nerve S e 0 (b t) (k, j)) with (part (fam_cech IN n0 nerve S e 0 (b t)) k j). rewrite fci by auto. reflexivity.
    - rewrite fco by auto. apply cong_eq. symmetry. apply Zsum_0. intros t _. rewrite fco by auto. ring. }
  split.
  - intros N c b y. apply X. intros x. reflexivity.
  - intros u v H y. rewrite (X 1%nat (fun _ => 1) (fun _ => v) u); [apply cong_eq; cbn [Zsum]; ring|]. intros x. rewrite H. apply cong_eq. cbn [Zsum]. ring.
Qed.

Lemma L_glue e : linear p (glue IN n0 S e).
Proof. split; [intros n c b y; apply cong_eq; apply glue_lin|]. intros u v H y. apply glue_cong. auto. Qed.

(** ** Cycles and boundaries *)
Lemma fam_cycle_iff e n r v : fam_cycle p Dist IN n0 nerve S (Datatypes.S e) n r v <-> FC (Datatypes.S e) n r v /\ forall x, cong p (dD e n v x) 0.
Proof.
  split.
  - intros [H1 H2]. split; [split; auto; intros k Hk; apply (H2 k Hk)|]. intros [k j]. destruct (Nat.lt_ge_cases k (length (level n0 nerve n))) as [L|L]; [|rewrite dD_out by auto; reflexivity].
    rewrite dD_in by auto. apply iff0. apply (H2 k L).
  - intros [[H1 H2] H3]. split; auto. intros k Hk. split; [apply H2; auto|]. intros i. apply iff0. rewrite <- (dD_in e n v k Hk). apply H3.
Qed.

Lemma fam_bounds_iff e n r v : fam_bounds p Dist IN n0 nerve S e n r v <-> exists y, FC (Datatypes.S e) n r y /\ forall x, cong p (v x) (dD e n y x).
Proof.
  split.
  - intros [H1 H2]. destruct (choose_fun _ _ _ _ _ _ _ _ HI S (fun _ : nat => 0) _ _ H2) as (w & Hw).
    set (y := fun x : nat * nat => if Nat.ltb (fst x) (length (level n0 nerve n)) then w (fst x) (snd x) else 0).
    assert (Y : forall k, (k < length (level n0 nerve n))%nat -> forall j, part y k j = w k j) by (intros k Hk j; unfold part, y; cbn [fst snd]; apply Nat.ltb_lt in Hk; rewrite Hk; reflexivity).
    exists y. split; [split|].
    + intros k j Hk. unfold y. cbn [fst]. apply Nat.ltb_ge in Hk. rewrite Hk. apply Zmod_0_l.
    + intros k Hk. apply (sub_ext p _ (w k)); [apply (local_chain_sub argsort Dist max_r max_dim p IN n0 nerve HI)| |apply (Hw k Hk)]. intros j. symmetry. apply Y. auto.
    + intros [k j]. destruct (Nat.lt_ge_cases k (length (level n0 nerve n))) as [L|L]; [|rewrite dD_out by auto; apply iff0; apply H1; auto].
      rewrite dD_in by auto. rewrite (local_bd_lin p IN S n e k 1 (fun _ => 1) (fun _ => w k) (part y k)).
      * destruct (Hw k L) as [_ X]. specialize (X j). apply ciff in X. cbn [Zsum]. rewrite X. apply cong_eq. unfold part. ring.
      * intros i. cbn [Zsum]. apply cong_eq. rewrite Y by auto. ring.
  - intros (y & [H1 H2] & H3). split.
    + intros k j Hk. apply iff0. rewrite H3. rewrite dD_out by auto. reflexivity.
    + intros k Hk. exists (part y k). split; [apply H2; auto|]. intros j. rewrite <- (dD_in e n y k Hk). apply ciff. symmetry. apply H3.
Qed.

Lemma In_dD e n r z : (e < m)%nat -> FC (Datatypes.S e) n r z -> FC e n r (dD e n z).
Proof.
  intros He Hz. assert (X : fam_cycle p Dist IN n0 nerve S e n r (dD e n z)).
  { apply (fam_bounds_cycle _ _ _ _ _ _ _ _ _ HI S PO e He Htop'). apply fam_bounds_iff. exists z. split; auto. intros x. reflexivity. }
  destruct X as [X1 X2]. split; auto. intros k Hk. apply (X2 k Hk).
Qed.

Lemma dD_dD e n r z : (Datatypes.S e < m)%nat -> FC (Datatypes.S (Datatypes.S e)) n r z -> forall x, cong p (dD e n (dD (Datatypes.S e) n z) x) 0.
Proof.
  intros He Hz. apply (fam_cycle_iff e n r). apply (fam_bounds_cycle _ _ _ _ _ _ _ _ _ HI S PO (Datatypes.S e) He Htop'). apply fam_bounds_iff. exists z. split; auto. intros x. reflexivity.
Qed.

Lemma In_ch e r z : (e <= m)%nat -> FC e 1 r z -> FC e 0 r (ch e z).
Proof.
  intros He [H1 H2]. split; [intros k j Hk; unfold ch; rewrite fco by auto; apply Zmod_0_l|]. intros k Hk.
  apply (sub_ext p _ (cech_image n0 nerve IN S 0 e k (part z))); [apply (local_chain_sub argsort Dist max_r max_dim p IN n0 nerve HI)|intros j; symmetry; apply fci; auto|].
  apply (ci_chain _ _ _ _ _ _ _ _ _ HI S PO 0%nat e k r (part z)); auto.
Qed.

Lemma comm e z x : (e < m)%nat -> cong p (dD e 0 (ch (Datatypes.S e) z) x) (-1 * ch e (dD e 1 z) x).
Proof.
  intros He. destruct x as [k j]. destruct (Nat.lt_ge_cases k (length (level n0 nerve 0))) as [L|L].
  - rewrite dD_in by auto. change (ch e (dD e 1 z) (k, j)) with (part (fam_cech IN n0 nerve S e 0 (dD e 1 z)) k j). rewrite fci by auto.
    rewrite (local_bd_lin p IN S 0 e k 1 (fun _ => 1) (fun _ => cech_image n0 nerve IN S 0 (Datatypes.S e) k (part z)) (part (ch (Datatypes.S e) z) k)).
    + cbn [Zsum]. rewrite (ci_bd _ _ _ _ _ _ _ _ _ HI S PO 0%nat e k (part z) j ltac:(lia) L He).
      rewrite (ci_ext p IN n0 nerve S 0 e k (part (dD e 1 z)) (fun s => local_bd IN S 1 e s (part z s)) j); [apply cong_eq; ring|].
      intros s i Hs. unfold part at 1. rewrite dD_in by auto. reflexivity.
    + intros i. cbn [Zsum]. apply cong_eq. unfold ch. rewrite fci by auto. ring.
  - rewrite dD_out by auto. unfold ch. rewrite fco by auto. reflexivity.
Qed.

(** ** Elements of the cover which contain a simplex *)
Hypothesis Htwo : two_cover IN n0 nerve.

Lemma meet1 s T : (s < length (level n0 nerve 1))%nat -> incl T (ins_of IN 1 s) <-> incl T (ins_of IN 0 (ea n0 nerve s)) /\ incl T (ins_of IN 0 (eb n0 nerve s)).
Proof.
  intros Hs. destruct (edge_ok _ _ _ _ _ _ _ _ HI S s Hs) as [Es _]. pose proof (fun q => cov_meet _ _ _ _ HC 1%nat s q ltac:(lia) Hs) as X. unfold ins_of. split.
  - intros H. split; intros q Hq; apply (proj1 (X q) (H q Hq)); rewrite Es; cbn; auto.
  - intros [H1 H2] q Hq. apply X. intros v Hv. rewrite Es in Hv. destruct Hv as [<-|[<-|[]]]; auto.
Qed.

Lemma G1_iff s e T : (s < length (level n0 nerve 1))%nat -> (e <= m)%nat -> In T (G 1 s e) <-> In T (G 0 (ea n0 nerve s) e) /\ In T (G 0 (eb n0 nerve s) e).
Proof.
  intros Hs He. destruct (edge_ok _ _ _ _ _ _ _ _ HI S s Hs) as [_ Hab]. unfold G.
  rewrite (GI _ _ _ _ _ _ _ _ _ HI S PO 1%nat s e T ltac:(lia) Hs He).
  rewrite (GI _ _ _ _ _ _ _ _ _ HI S PO 0%nat (ea n0 nerve s) e T ltac:(lia) (k0 (ea n0 nerve s) ltac:(lia)) He).
  rewrite (GI _ _ _ _ _ _ _ _ _ HI S PO 0%nat (eb n0 nerve s) e T ltac:(lia) (k0 (eb n0 nerve s) ltac:(lia)) He).
  rewrite meet1 by auto. tauto.
Qed.

Lemma carriers e T a b : (e <= m)%nat -> (a < b < n0)%nat -> In T (G 0 a e) -> In T (G 0 b e) ->
  (exists s, (s < length (level n0 nerve 1))%nat /\ ea n0 nerve s = a /\ eb n0 nerve s = b /\ In T (G 1 s e) /\
    forall t, (t < length (level n0 nerve 1))%nat -> In T (G 1 t e) -> t = s) /\
  forall c, (c < n0)%nat -> In T (G 0 c e) -> c = a \/ c = b.
Proof.
  intros He Hab Ha Hb.
  assert (Hq : exists q, In q T /\ forall c, (c < n0)%nat -> In T (G 0 c e) -> In q (ins_of IN 0 c)).
  { apply (GI _ _ _ _ _ _ _ _ _ HI S PO 0%nat a e T ltac:(lia) (k0 a ltac:(lia)) He) in Ha. destruct Ha as ((H1 & _) & _).
    destruct T as [|q T]; [cbn in H1; lia|]. exists q. split; [cbn; auto|]. intros c Hc HT.
    apply (GI _ _ _ _ _ _ _ _ _ HI S PO 0%nat c e (q :: T) ltac:(lia) (k0 c ltac:(lia)) He) in HT. apply HT. cbn. auto. }
  destruct Hq as (q & HqT & Hq). destruct (Htwo q a b Hab) as [H1 H2]; [apply Hq; auto; lia|apply Hq; auto; lia|].
  assert (U : forall c, (c < n0)%nat -> In T (G 0 c e) -> c = a \/ c = b) by (intros c Hc HT; apply H2; auto).
  split; [|exact U]. destruct (In_nth _ _ [] H1) as (s & Hs & Es). exists s. destruct (edge_ok _ _ _ _ _ _ _ _ HI S s Hs) as [Es' Hs'].
  rewrite Es in Es'. injection Es' as Ea Eb. split; auto. split; auto. split; auto. split.
  - apply G1_iff; auto. rewrite <- Ea, <- Eb. auto.
  - intros t Ht HT. apply G1_iff in HT; auto. destruct HT as [T1 T2]. destruct (edge_ok _ _ _ _ _ _ _ _ HI S t Ht) as [Et Ht'].
    destruct (U (ea n0 nerve t) ltac:(lia) T1), (U (eb n0 nerve t) ltac:(lia) T2); try lia.
    destruct (cov_simp _ _ _ _ HC) as (_ & Hnd & _). apply (proj1 (NoDup_nth (level n0 nerve 1) []) (Hnd 1%nat)); auto. congruence.
Qed.

(** ** Exactness of the rows *)
Let OS n k e (v : nat * nat -> Z) T := on_simplices (G n k e) (part v k) T.
Lemma OS_nth n k e v j : (n < 2)%nat -> (k < length (level n0 nerve n))%nat -> (j < length (G n k e))%nat -> OS n k e v (nth j (G n k e) []) = v (k, j).
Proof. intros Hn Hk Hj. unfold OS. rewrite on_simplices_nth; auto. apply (GN _ _ _ _ _ _ _ _ _ HI S PO); auto. lia. Qed.
Lemma OS_out n k e v T : ~ In T (G n k e) -> OS n k e v T = 0.
Proof. apply on_simplices_out. Qed.
Lemma sgn_sq e : (-1) ^ Z.of_nat e * (-1) ^ Z.of_nat e = 1.
Proof. rewrite <- Z.pow_mul_l. change (-1 * -1) with 1. apply Z.pow_1_l. lia. Qed.

Lemma ch_at e w k j : (k < n0)%nat -> ch e w (k, j) = (-1) ^ Z.of_nat e * Zsum (length (level n0 nerve 1)) (fun s => nerve_bd n0 nerve 0 k s * OS 1 s e w (nth j (G 0 k e) [])).
Proof. intros Hk. unfold ch. change (fam_cech IN n0 nerve S e 0 w (k, j)) with (part (fam_cech IN n0 nerve S e 0 w) k j). rewrite fci by (rewrite L0; auto). reflexivity. Qed.

Lemma ch_out e w k j : (e <= m)%nat -> (k < n0)%nat -> (length (G 0 k e) <= j)%nat -> ch e w (k, j) = 0.
Proof.
  intros He Hk Hj. rewrite ch_at by auto. rewrite nth_overflow by auto. rewrite Zsum_0; [ring|]. intros s Hs. rewrite OS_out; [ring|].
  intros X. apply (GI _ _ _ _ _ _ _ _ _ HI S PO 1%nat s e [] ltac:(lia) Hs He) in X. destruct X as ((X & _) & _). cbn in X. lia.
Qed.

Lemma ch_inj e r w : (e <= m)%nat -> FC e 1 r w -> (forall x, cong p (ch e w x) 0) -> forall x, cong p (w x) 0.
Proof.
  intros He Hw H [t j]. destruct (Nat.lt_ge_cases t (length (level n0 nerve 1))) as [Ht|Ht]; [|apply (FC_zero_at e 1 r w t j Hw); auto].
  destruct (Nat.lt_ge_cases j (length (G 1 t e))) as [Hj|Hj]; [|apply (FC_zero_at e 1 r w t j Hw); auto].
  set (T := nth j (G 1 t e) []). assert (HT : In T (G 1 t e)) by (apply nth_In; auto).
  destruct (edge_ok _ _ _ _ _ _ _ _ HI S t Ht) as [_ Hab].
  pose proof (proj1 (G1_iff t e T Ht He) HT) as [Ta Tb]. destruct (carriers e T _ _ He Hab Ta Tb) as ((s & Hs & _ & _ & _ & Hun) & _).
  destruct (In_nth _ _ [] Ta) as (i & Hi & Ei). specialize (H (ea n0 nerve t, i)). rewrite ch_at in H by lia. rewrite Ei in H.
  rewrite (Zsum_single _ t) in H; auto.
  - pose proof (nb_edge _ _ _ _ _ _ _ _ HI S (ea n0 nerve t) t ltac:(lia) Ht) as X. cbv beta in X. rewrite X in H. rewrite Nat.eqb_refl in H. destruct (Nat.eqb_spec (ea n0 nerve t) (eb n0 nerve t)); [lia|].
    unfold T in H. rewrite OS_nth in H by auto. assert (Y : cong p ((-1) ^ Z.of_nat e * ((-1) ^ Z.of_nat e * ((1 - 0) * w (t, j)))) 0) by (rewrite H; apply cong_eq; ring).
    rewrite Z.mul_assoc, sgn_sq in Y. rewrite <- Y. apply cong_eq. ring.
  - intros s' Hs' Hne. rewrite OS_out; [ring|]. intros X. apply Hne. rewrite (Hun s' Hs' X). symmetry. apply Hun; auto.
Qed.

Lemma ch_exact e r U : (e <= m)%nat -> FC e 0 r U -> (forall y, cong p (glue IN n0 S e U y) 0) -> exists z, FC e 1 r z /\ forall x, cong p (U x) (ch e z x).
Proof.
  intros He HU Hg.
  set (z := fun x : nat * nat => if Nat.ltb (fst x) (length (level n0 nerve 1)) && Nat.ltb (snd x) (length (G 1 (fst x) e))
    then (-1) ^ Z.of_nat e * OS 0 (ea n0 nerve (fst x)) e U (nth (snd x) (G 1 (fst x) e) []) else 0).
  assert (Z : forall t T, (t < length (level n0 nerve 1))%nat -> In T (G 1 t e) -> OS 1 t e z T = (-1) ^ Z.of_nat e * OS 0 (ea n0 nerve t) e U T).
  { intros t T Ht HT. destruct (In_nth _ _ [] HT) as (j & Hj & Ej). rewrite <- Ej. rewrite OS_nth by (auto; lia). unfold z. cbn [fst snd].
    apply Nat.ltb_lt in Ht, Hj. rewrite Ht, Hj. reflexivity. }
  exists z. split; [split|].
  - intros t j Ht. unfold z. cbn [fst snd]. apply Nat.ltb_ge in Ht. rewrite Ht. apply Zmod_0_l.
  - intros t Ht j Hj. unfold part, z in Hj. cbn [fst snd] in Hj. destruct (Nat.ltb_spec t (length (level n0 nerve 1))) as [_|]; [|lia].
    destruct (Nat.ltb_spec j (length (G 1 t e))) as [Lj|Lj]; [|exfalso; apply Hj; reflexivity]. cbn [andb] in Hj. split; [exact Lj|]. fold G.
    set (T := nth j (G 1 t e) []) in *. destruct (edge_ok _ _ _ _ _ _ _ _ HI S t Ht) as [_ Hab].
    unfold OS in Hj. destruct (on_simplices_cases (G 0 (ea n0 nerve t) e) (part U (ea n0 nerve t)) T) as [(i & Hi & E & Ei)|[_ E]]; [apply (GN _ _ _ _ _ _ _ _ _ HI S PO); [lia|apply k0; lia]| |].
    + rewrite Ei in Hj. rewrite <- E. destruct HU as [_ HU]. apply (HU (ea n0 nerve t) (k0 (ea n0 nerve t) ltac:(lia)) i). intros X. apply Hj. apply iff0. apply iff0 in X. rewrite X. apply cong_eq. ring.
    + exfalso. apply Hj. rewrite E, Z.mul_0_r. apply Zmod_0_l.
  - intros [k j]. destruct (Nat.lt_ge_cases k n0) as [Hk|Hk].
    2:{ unfold ch. rewrite fco by (rewrite L0; auto). apply (FC_zero_at e 0 r U k j HU). rewrite L0. auto. }
    destruct (Nat.lt_ge_cases j (length (G 0 k e))) as [Hj|Hj].
    2:{ rewrite ch_out by auto. apply (FC_zero_at e 0 r U k j HU). auto. }
    rewrite ch_at by auto. set (T := nth j (G 0 k e) []). assert (HT : In T (G 0 k e)) by (apply nth_In; auto).
    assert (E1 : U (k, j) = OS 0 k e U T) by (unfold T; symmetry; apply OS_nth; auto; rewrite L0; auto). rewrite E1.
    assert (Hz0 : forall t, (t < length (level n0 nerve 1))%nat -> ~ In T (G 1 t e) -> nerve_bd n0 nerve 0 k t * OS 1 t e z T = 0) by (intros t Ht Hn; rewrite OS_out by auto; ring).
    specialize (Hg T). unfold glue in Hg. change (cong p (Zsum n0 (fun k => OS 0 k e U T)) 0) in Hg.
    (* is there another element of the cover? *)
    destruct (existsb (fun c => negb (Nat.eqb c k) && (if in_dec (list_eq_dec Nat.eq_dec) T (G 0 c e) then true else false)) (seq 0 n0)) eqn:Ex.
    + apply existsb_exists in Ex. destruct Ex as (c & Hc & Ec). apply in_seq in Hc. apply andb_true_iff in Ec. destruct Ec as [Ec1 Ec2].
      apply Bool.negb_true_iff, Nat.eqb_neq in Ec1. destruct (in_dec (list_eq_dec Nat.eq_dec) T (G 0 c e)) as [HcT|]; [|discriminate].
      assert (HH : exists a b, (a < b < n0)%nat /\ In T (G 0 a e) /\ In T (G 0 b e) /\ (k = a \/ k = b)).
      { destruct (Nat.lt_ge_cases k c); [exists k, c|exists c, k]; repeat split; auto; lia. }
      destruct HH as (a & b & Hab & Ta & Tb & Hkab). destruct (carriers e T a b He Hab Ta Tb) as ((s & Hs & Ea & Eb & HsT & Hun) & Hcc).
      assert (Hsum : cong p (OS 0 a e U T + OS 0 b e U T) 0).
      { rewrite <- Hg. apply cong_eq. rewrite (Zsum_ext n0 _ (fun i => (if Nat.eqb i a then OS 0 a e U T else 0) + (if Nat.eqb i b then OS 0 b e U T else 0))).
        - rewrite Zsum_add, !Zsum_ind by lia. reflexivity.
        - intros i Hi. destruct (Nat.eqb_spec i a) as [Ia|Na], (Nat.eqb_spec i b) as [Ib|Nb]; [lia|subst i; ring|subst i; ring|].
          rewrite OS_out; [reflexivity|]. intros X. destruct (Hcc i Hi X); contradiction. }
      rewrite (Zsum_single _ s); auto.
      rewrite (Z s T Hs HsT), Ea. pose proof (nb_edge _ _ _ _ _ _ _ _ HI S k s Hk Hs) as X. cbv beta in X. rewrite X, Ea, Eb.
      transitivity ((-1) ^ Z.of_nat e * (-1) ^ Z.of_nat e * (((if Nat.eqb k a then 1 else 0) - (if Nat.eqb k b then 1 else 0)) * OS 0 a e U T)); [|apply cong_eq; ring].
      rewrite sgn_sq. destruct Hkab as [-> | ->].
      * rewrite Nat.eqb_refl. destruct (Nat.eqb_spec a b); [lia|]. apply cong_eq. ring.
      * rewrite Nat.eqb_refl. destruct (Nat.eqb_spec b a); [lia|]. transitivity (OS 0 a e U T + OS 0 b e U T - OS 0 a e U T); [apply cong_eq; ring|]. rewrite Hsum. apply cong_eq. ring.
    + assert (Hal : forall c, (c < n0)%nat -> In T (G 0 c e) -> c = k).
      { intros c Hc HcT. destruct (Nat.eq_dec c k) as [|Hne]; auto. exfalso. assert (X : existsb (fun c => negb (Nat.eqb c k) && (if in_dec (list_eq_dec Nat.eq_dec) T (G 0 c e) then true else false)) (seq 0 n0) = true).
        { apply existsb_exists. exists c. split; [apply in_seq; lia|]. apply andb_true_iff. split; [apply Bool.negb_true_iff, Nat.eqb_neq; auto|]. destruct (in_dec _ _ _); [reflexivity|contradiction]. }
        rewrite X in Ex. discriminate. }
      rewrite (Zsum_single _ k) in Hg; auto; [|intros i Hi Hne; apply OS_out; intros X; apply Hne; apply Hal; auto].
      rewrite Hg. rewrite Zsum_0; [apply cong_eq; ring|]. intros t Ht. apply Hz0; auto. intros X. apply G1_iff in X; auto. destruct (edge_ok _ _ _ _ _ _ _ _ HI S t Ht) as [_ Hab].
      pose proof (Hal (ea n0 nerve t) ltac:(lia) (proj1 X)). pose proof (Hal (eb n0 nerve t) ltac:(lia) (proj2 X)). lia.
Qed.

(** ** The complex of the cloud *)
Lemma glue_out e v y : (e <= m)%nat -> ~ (increasing y /\ length y = Datatypes.S e) -> glue IN n0 S e v y = 0.
Proof.
  intros He Hy. unfold glue. apply Zsum_0. intros k Hk. apply on_simplices_out. intros X.
  apply (GI _ _ _ _ _ _ _ _ _ HI S PO 0%nat k e y ltac:(lia) (k0 k ltac:(lia)) He) in X. destruct X as ((X1 & X2 & _) & _). auto.
Qed.

Lemma glue_bd' e w t : (e < m)%nat -> increasing t -> cong p (simplicial_bd (length Dist) (glue IN n0 S (Datatypes.S e) w) t) (dsign e * glue IN n0 S e (dD e 0 w) t).
Proof.
  intros He Ht. rewrite (glue_bd _ _ _ _ _ _ _ _ _ HI S PO e w t He Ht). apply cong_mul; [reflexivity|]. apply (glue_cong_in p). intros k j Hk. cbn [fst snd]. rewrite dD_in by (rewrite L0; auto). reflexivity.
Qed.

Let incr_dec y e : {increasing y /\ length y = e} + {~ (increasing y /\ length y = e)}.
Proof.
  destruct (Nat.eq_dec (length y) e) as [E|E]; [|right; tauto].
  assert (X : {increasing y} + {~ increasing y}).
  { clear E. unfold increasing. induction y as [|a l IH]; [left; constructor|]. destruct IH as [IH|IH]; [|right; intros X; apply IH; inversion X; auto].
    destruct (Forall_dec (lt a) (lt_dec a) l) as [H|H]; [left; constructor; auto|right; intros X; apply H; inversion X; auto]. }
  destruct X; [left|right]; tauto.
Defined.

Lemma s_cycle_glue e r U : (e < m)%nat -> FC (Datatypes.S e) 0 r U -> (forall y, cong p (glue IN n0 S e (dD e 0 U) y) 0) ->
  s_cycle p (length Dist) (fun d => rips Dist d r) (Datatypes.S e) (glue IN n0 S (Datatypes.S e) U).
Proof.
  intros He [_ HU] Hg. split; [apply (glue_chain _ _ _ _ _ _ _ _ _ HI S PO); intros k Hk; apply HU; rewrite L0; auto|].
  intros _ t Ht _. apply iff0. rewrite (glue_bd' e U t He Ht). rewrite Hg. apply cong_eq. ring.
Qed.

Lemma FC_cut e r c : s_chain p (fun d => rips Dist d r) e c -> FC e 0 r (cut IN n0 S e c).
Proof.
  intros Hc. split; [|intros k Hk; apply cut_chain; auto]. intros k j Hk. rewrite L0 in Hk. unfold cut. cbn [fst]. apply Nat.ltb_ge in Hk. rewrite Hk. apply Zmod_0_l.
Qed.

Lemma s_cycle_cut e r c : r < max_r -> (e < m)%nat -> fine Dist max_r IN n0 (Datatypes.S e) -> s_cycle p (length Dist) (fun d => rips Dist d r) (Datatypes.S e) c ->
  exists U, FC (Datatypes.S e) 0 r U /\ (forall y, cong p (c y) (glue IN n0 S (Datatypes.S e) U y)) /\ forall y, cong p (glue IN n0 S e (dD e 0 U) y) 0.
Proof.
  intros Hr He Hf [Hc Hz]. exists (cut IN n0 S (Datatypes.S e) c).
  assert (E : forall y, cong p (glue IN n0 S (Datatypes.S e) (cut IN n0 S (Datatypes.S e) c) y) (c y)) by (intros y; apply (glue_cut _ _ _ _ _ _ _ _ _ HI S PO _ r); auto).
  split; [apply FC_cut; auto|]. split; [intros y; symmetry; apply E|].
  intros y. destruct (incr_dec y (Datatypes.S e)) as [[H1 H2]|H]; [|rewrite glue_out by (auto; lia); reflexivity].
  transitivity (dsign e * (dsign e * glue IN n0 S e (dD e 0 (cut IN n0 S (Datatypes.S e) c)) y)); [rewrite Z.mul_assoc, dsign_sq; apply cong_eq; ring|].
  rewrite <- glue_bd' by auto. rewrite (simplicial_bd_cong p (length Dist) _ c y E).
  rewrite (proj1 (iff0 _) (Hz ltac:(lia) y H1 H2)). apply cong_eq. ring.
Qed.

Lemma s_bounds_glue e r y : (e < m)%nat -> FC (Datatypes.S e) 0 r y -> s_bounds p (length Dist) (fun d => rips Dist d r) e (glue IN n0 S e (dD e 0 y)).
Proof.
  intros He Hy. apply (glue_bounds _ _ _ _ _ _ _ _ _ HI S PO Htop' e r); auto. apply fam_bounds_iff. exists y. split; auto. intros x. reflexivity.
Qed.

Lemma s_bounds_cut e r c : r < max_r -> (e < m)%nat -> fine Dist max_r IN n0 (Datatypes.S e) -> s_bounds p (length Dist) (fun d => rips Dist d r) e c ->
  exists y, FC (Datatypes.S e) 0 r y /\ forall x, cong p (c x) (glue IN n0 S e (dD e 0 y) x).
Proof.
  intros Hr He Hf (Hc & w & Hw & Hb). set (y := cut IN n0 S (Datatypes.S e) w).
  assert (E : forall x, cong p (glue IN n0 S (Datatypes.S e) y x) (w x)) by (intros x; apply (glue_cut _ _ _ _ _ _ _ _ _ HI S PO _ r); auto).
  exists (fun x => dsign e * y x). split.
  - apply (FC_sub (Datatypes.S e) 0 r 1%nat (fun _ => dsign e) (fun _ => y)); [intros _ _; apply FC_cut; auto|]. intros x. cbn [Zsum]. f_equal; ring.
  - intros x. rewrite (lin_ext p _ (L_glue e) _ (fun x => dsign e * dD e 0 y x)) by (intros z; apply (lin_scale p (dD e 0)); apply L_dD).
    rewrite (lin_scale p (glue IN n0 S e)) by apply L_glue.
    destruct (incr_dec x (Datatypes.S e)) as [[H1 H2]|H].
    + rewrite <- glue_bd' by auto. rewrite (simplicial_bd_cong p (length Dist) _ w x E). symmetry. apply ciff. apply Hb; auto.
    + rewrite glue_out by (auto; lia). rewrite Z.mul_0_r. destruct (Z.eq_dec (c x mod p) 0) as [X|X]; [apply iff0; auto|]. exfalso. apply H.
      destruct (Hc x X) as ((X1 & X2 & _) & _). auto.
Qed.

(** ** The second page *)
Lemma page0_bounds_iff e r U : (Datatypes.S e < m)%nat -> page2_bounds p Dist IN n0 nerve S (Datatypes.S e) 0 r U <->
  exists w y, FC (Datatypes.S e) 1 r w /\ (forall x, cong p (dD e 1 w x) 0) /\ FC (Datatypes.S (Datatypes.S e)) 0 r y /\
    forall x, cong p (U x) (ch (Datatypes.S e) w x + dD (Datatypes.S e) 0 y x).
Proof.
  intros He. split.
  - intros (_ & w & Hw & Hb). apply fam_bounds_iff in Hb. destruct Hb as (y & Hy & E). apply fam_cycle_iff in Hw. destruct Hw as [Hw1 Hw2].
    exists w, y. repeat (split; auto). intros x. rewrite <- E. unfold ch. apply cong_eq. ring.
  - intros (w & y & Hw1 & Hw2 & Hy & E).
    assert (Hw : fam_cycle p Dist IN n0 nerve S (Datatypes.S e) 1 r w) by (apply fam_cycle_iff; auto).
    assert (Hb : fam_bounds p Dist IN n0 nerve S (Datatypes.S e) 0 r (fun x => U x - ch (Datatypes.S e) w x)) by (apply fam_bounds_iff; exists y; split; auto; intros x; rewrite E; apply cong_eq; ring).
    split; [|exists w; auto].
    apply (subs_cong p Hp _ (fun x => ch (Datatypes.S e) w x + (U x - ch (Datatypes.S e) w x))); [apply (fam_cycle_sub argsort Dist max_r max_dim p IN n0 nerve HI)|intros x; apply cong_eq; ring|].
    apply (sub_add p); [apply (fam_cycle_sub argsort Dist max_r max_dim p IN n0 nerve HI)|apply (fc_cycle _ _ _ _ _ _ _ _ _ HI S PO (Datatypes.S e) He Htop'); auto|].
    apply (fam_bounds_cycle _ _ _ _ _ _ _ _ _ HI S PO (Datatypes.S e) He Htop'); auto.
Qed.

Lemma page1_bounds_iff e r w : (e < m)%nat -> page2_bounds p Dist IN n0 nerve S e 1 r w <-> exists y, FC (Datatypes.S e) 1 r y /\ forall x, cong p (w x) (dD e 1 y x).
Proof.
  intros He. assert (C0 : forall v x, fam_cech IN n0 nerve S e 1 v x = 0).
  { intros v x. unfold fam_cech. destruct (Nat.ltb _ _); [|reflexivity]. unfold cech_image. rewrite Htop. cbn [length Zsum]. ring. }
  split.
  - intros (_ & w' & _ & Hb). apply fam_bounds_iff in Hb. destruct Hb as (y & Hy & E). exists y. split; auto. intros x. rewrite <- E, C0. apply cong_eq. ring.
  - intros H. assert (Hb : fam_bounds p Dist IN n0 nerve S e 1 r w) by (apply fam_bounds_iff; auto).
    split; [apply (fam_bounds_cycle _ _ _ _ _ _ _ _ _ HI S PO e He Htop'); auto|]. exists (fun _ => 0). split.
    + apply (subs_zero p Hp); [apply (fam_cycle_sub argsort Dist max_r max_dim p IN n0 nerve HI)|intros; reflexivity].
    + apply (sub_ext p _ w); [apply (fam_bounds_sub argsort Dist max_r max_dim p IN n0 nerve HI)|intros x; rewrite C0; f_equal; ring|auto].
Qed.

Lemma page1_cycle e r w U : (e < m)%nat -> FC e 1 r w -> FC (Datatypes.S e) 0 r U -> (forall x, cong p (dD e 0 U x) (ch e w x)) -> page2_cycle p Dist IN n0 nerve S e 1 r w.
Proof.
  intros He Hw HU E. split.
  - destruct e as [|e]; [destruct Hw as [W1 W2]; split; auto; intros k Hk; split; [apply W2; auto|exact I]|].
    apply fam_cycle_iff. split; auto. apply (ch_inj e r); [lia|apply In_dD; auto; lia|]. intros x.
    transitivity (-1 * (-1 * ch e (dD e 1 w) x)); [apply cong_eq; ring|]. rewrite <- comm by lia.
    rewrite (lin_ext p _ (L_dD e 0) _ (dD (Datatypes.S e) 0 U)) by (intros y; symmetry; apply E). rewrite (dD_dD e 0 r U) by auto. apply cong_eq. ring.
  - apply fam_bounds_iff. exists U. split; auto. intros x. symmetry. apply E.
Qed.

(** ** The extension of the two columns is the homology of the cloud *)
Theorem two_columns_fam d bars0 bars1 g0 g1 u sg E bars' :
  (Datatypes.S d < m)%nat -> fine Dist max_r IN n0 (Datatypes.S d) -> fine Dist max_r IN n0 (Datatypes.S (Datatypes.S d)) -> sg * sg = 1 ->
  persistent_basis p (page2_cycle p Dist IN n0 nerve S (Datatypes.S d) 0) (page2_bounds p Dist IN n0 nerve S (Datatypes.S d) 0) max_r bars0 g0 ->
  persistent_basis p (page2_cycle p Dist IN n0 nerve S d 1) (page2_bounds p Dist IN n0 nerve S d 1) max_r bars1 g1 ->
  (forall b, (b < length bars1)%nat -> FC (Datatypes.S d) 0 (bbirth bars1 b) (u b) /\ forall x, cong p (dD d 0 (u b) x) (sg * fam_cech IN n0 nerve S d 0 (g1 b) x)) ->
  (forall i k, ~ cong p (get E i k) 0 -> (i < length bars0)%nat /\ (length bars0 <= k < length bars0 + length bars1)%nat) ->
  (forall a b, (a < length bars0)%nat -> (b < length bars1)%nat -> ~ cong p (get E a (length bars0 + b)) 0 -> bbirth bars0 a <= bdeath bars1 b) ->
  (forall b, (b < length bars1)%nat -> bdeath bars1 b < max_r -> exists v, FC (Datatypes.S d) 1 (bdeath bars1 b) v /\ (forall x, cong p (dD d 1 v x) (g1 b x)) /\
    page2_bounds p Dist IN n0 nerve S (Datatypes.S d) 0 (bdeath bars1 b)
      (fun x => u b x + sg * fam_cech IN n0 nerve S (Datatypes.S d) 0 v x - Zsum (length bars0) (fun a => get E a (length bars0 + b) * g0 a x))) ->
  barcode p (pres_cycle p (bars0 ++ bars1)) (pres_bounds p (bars0 ++ bars1) E) max_r bars' -> rips_barcode p Dist max_r (Datatypes.S d) bars'.
Proof.
  intros Hd Hf1 Hf2 Hsg P0 P1 Hu HE Hval Hdead.
  apply (two_columns p max_r Hp (FC d 1) (FC (Datatypes.S d) 1) (FC (Datatypes.S d) 0) (FC (Datatypes.S (Datatypes.S d)) 0)
    (dD d 1) (dD d 0) (dD (Datatypes.S d) 0) (ch d) (ch (Datatypes.S d)) (glue IN n0 S d) (glue IN n0 S (Datatypes.S d))
    _ _ (page2_cycle p Dist IN n0 nerve S (Datatypes.S d) 0) (page2_bounds p Dist IN n0 nerve S (Datatypes.S d) 0)
    (page2_cycle p Dist IN n0 nerve S d 1) (page2_bounds p Dist IN n0 nerve S d 1)) with (eps := -1) (g0 := g0) (g1 := g1) (u := u) (sg := sg); auto using FC_sub, L_dD, L_glue.
  - apply L_ch. lia.
  - apply L_ch. lia.
  - intros r. apply (s_cycle_sub' argsort Dist max_r max_dim p IN n0 nerve HI S).
  - intros r. apply (s_bounds_sub argsort Dist max_r max_dim p IN n0 nerve HI S).
  - intros r s v. apply FC_mono.
  - intros r s v. apply FC_mono.
  - intros r s v. apply FC_mono.
  - intros r s v. apply FC_mono.
  - intros r s v. apply s_bounds_mono.
  - intros r z _. apply In_ch. lia.
  - intros r y _. apply In_dD. lia.
  - intros r z _. apply In_dD. lia.
  - intros r z _ _ x. apply comm. lia.
  - intros r y _. apply dD_dD. lia.
  - intros r w _ _ y. apply cong_eq. apply (glue_cech _ _ _ _ _ _ _ _ _ HI S PO); auto. fold m. lia.
  - intros r w _ _ y. apply cong_eq. apply (glue_cech _ _ _ _ _ _ _ _ _ HI S PO); auto. fold m. lia.
  - intros r w _. apply ch_inj. lia.
  - intros r U _ HU Hg. apply ch_exact; auto; [lia|]. apply In_dD; auto. lia.
  - intros r U _. apply ch_exact. lia.
  - intros r U _. apply s_cycle_glue. lia.
  - intros r c Hr. apply s_cycle_cut; auto. lia.
  - intros r y _. apply s_bounds_glue. lia.
  - intros r c Hr. apply s_bounds_cut; auto.
  - intros r U _. unfold page2_cycle. rewrite fam_cycle_iff. tauto.
  - intros r U _. apply page0_bounds_iff. auto.
  - intros r w U _. apply page1_cycle. lia.
  - intros r w _ [[W1 W2] _]. split; auto. intros k Hk. apply (W2 k Hk).
  - intros r w _. apply page1_bounds_iff. lia.
  - intros b Hb Hlt. destruct (Hdead b Hb Hlt) as (v & V1 & V2 & V3). exists v. split; auto. split; auto.
    apply page0_bounds_iff in V3; auto. apply page0_bounds_iff; auto. destruct V3 as (w & y & W1 & W2 & W3 & W4).
    exists w, y. repeat (split; auto). intros x. rewrite <- W4. unfold ch. apply cong_eq. ring.
Qed.
End TwoFam.
