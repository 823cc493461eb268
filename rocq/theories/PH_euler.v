(** * Cells, classes and images: the Euler characteristic *)
From Coq Require Import Znumtheory.
From Verif Require Import Base ListX Lin PH_lin Gauss_model Basis_model PH_model Spec_PH PH_step PH_props Spec_Bars Bars Bars_complex Spec_Euler.
Local Open Scope Z_scope.

Lemma filter_nth {A} (F : A -> bool) (x0 : A) l : length (filter (fun k => F (nth k l x0)) (seq 0 (length l))) = length (filter F l).
Proof.
  induction l as [|b l IH] using rev_ind; [reflexivity|].
  rewrite app_length. cbn [length]. rewrite Nat.add_1_r, seq_S, !filter_app, !app_length. cbn [plus filter].
  rewrite app_nth2, Nat.sub_diag by lia. cbn [nth]. f_equal; [|destruct (F b); reflexivity].
  rewrite <- IH. f_equal. apply filter_ext_in. intros k Hk. apply in_seq in Hk. rewrite app_nth1 by lia. reflexivity.
Qed.

Lemma filter_len_all {A} (F : A -> bool) l : (forall x, In x l -> F x = true) -> length (filter F l) = length l.
Proof.
  induction l as [|a l IH]; intros H; [reflexivity|]. cbn [filter]. rewrite (H a (or_introl eq_refl)). cbn [length]. f_equal. apply IH. intros x Hx. apply H. right. exact Hx.
Qed.

Section Euler.
Variables (rnd : Z -> Z) (p max_rad : Z) (n0 : nat) (Ds : list mat) (Rs : list (list Z)) (out : ph_out).
Hypothesis Hp : prime p.
Hypothesis VC : valid_complex p max_rad n0 Ds Rs.
Hypothesis Hout : persistent_homology rnd n0 Ds Rs max_rad p = Ok out.
Let hom d := b_bars (nth d (ph_hom out) empty_basis).
Let img d := b_bars (nth d (ph_im out) empty_basis).
Let p1 : 1 < p. Proof. destruct Hp. lia. Qed.
Let iff0 a : a mod p = 0 <-> cong p a 0. Proof. rewrite cong_iff_mod by lia. rewrite Zmod_0_l. reflexivity. Qed.
Let iffc a b : a mod p = b mod p <-> cong p a b. Proof. symmetry. apply cong_iff_mod. lia. Qed.

Definition nullv (v : nat -> Z) : Prop := forall i, v i mod p = 0.
Lemma nullv_sub : Spec_Bars.subspace p nullv.
Proof.
  intros n c b v Hb E i. rewrite E. apply iff0. apply Zsum_cong0. intros k Hk. rewrite (proj1 (iff0 _) (Hb k Hk i)). apply cong_eq. ring.
Qed.

(** The selected vectors are a basis. *)
Lemma dim_select (T : (nat -> Z) -> Prop) n g (f : nat -> bool) : (forall k, (k < n)%nat -> f k = true -> T (g k)) ->
  (forall v, T v -> exists c, forall i, cong p (v i) (Zsum n (fun k => if f k then c k * g k i else 0))) ->
  (forall c, (forall i, cong p (Zsum n (fun k => if f k then c k * g k i else 0)) 0) -> forall k, (k < n)%nat -> f k = true -> cong p (c k) 0) ->
  has_dim p T (length (filter f (seq 0 n))).
Proof.
  intros H1 H2 H3. assert (Q : quotient_basis p T nullv (length (filter f (seq 0 n))) (fun t => g (nth t (filter f (seq 0 n)) 0%nat)) (fun _ => True)).
  { apply (quotient_select p); [apply nullv_sub|exact H1| |].
    - intros v Hv. destruct (H2 v Hv) as [c Hc]. exists c. intros i. apply iff0. rewrite (Hc i). apply cong_eq. ring.
    - intros c Hc k Hk Hf. apply iff0. apply (H3 c); auto. intros i. apply iff0. apply Hc. }
  destruct Q as (Q1 & Q2 & Q3). exists (fun t => g (nth t (filter f (seq 0 n)) 0%nat)). split; [intros k Hk; apply Q1; auto|]. split.
  - intros v Hv. destruct (Q2 v Hv) as (c & _ & Hc). exists c. intros i. apply iffc. pose proof (proj1 (iff0 _) (Hc i)) as X. cbv beta in X. destruct X as [q X]. exists q. lia.
  - intros c Hc. apply Q3; [tauto|]. exact Hc.
Qed.

Lemma cells_dim d r : has_dim p (chain_at p Rs d r) (cells_at Rs d r).
Proof.
  unfold cells_at. rewrite <- (filter_nth (fun x => x <=? r) 0). change (length (nth d Rs [])) with (csize Rs d).
  apply (dim_select _ _ (fun k i => if Nat.eqb k i then 1 else 0)).
  - intros k Hk Hf i Hi. destruct (Nat.eqb_spec k i) as [E|]; [subst i|elim Hi; apply Zmod_0_l]. split; [exact Hk|]. apply Z.leb_le. exact Hf.
  - intros v Hv. exists v. intros i. destruct (Z.eq_dec (v i mod p) 0) as [H0|H0].
    + rewrite (proj1 (iff0 _) H0). symmetry. apply Zsum_cong0. intros k Hk. destruct (_ <=? r); [|reflexivity]. destruct (Nat.eqb_spec k i) as [->|]; [rewrite (proj1 (iff0 _) H0)|]; apply cong_eq; ring.
    + destruct (Hv i H0) as [Hi Hr]. apply cong_eq. symmetry. rewrite (Zsum_single _ i); [|exact Hi|].
      * rewrite Nat.eqb_refl. unfold crad in Hr. replace (nth i (nth d Rs []) 0 <=? r) with true by (symmetry; apply Z.leb_le; exact Hr). ring.
      * intros k _ Hne. destruct (_ <=? r); [|reflexivity]. destruct (Nat.eqb_spec k i); [contradiction|ring].
  - intros c Hc k Hk Hf. rewrite <- (Hc k). apply cong_eq. symmetry. rewrite (Zsum_single _ k); [|exact Hk|].
    + rewrite Nat.eqb_refl, Hf. ring.
    + intros j _ Hne. destruct (nth j (nth d Rs []) 0 <=? r); [|reflexivity]. destruct (Nat.eqb_spec j k); [contradiction|ring].
Qed.

Let C22 d (Hd : (d < length Ds)%nat) := C22_aux rnd p max_rad n0 Ds Rs out Hp VC Hout d Hd.

Lemma sel_sum_eq n c (b : nat -> Z) (f : nat -> bool) : (forall k, (k < n)%nat -> f k = false -> c k = 0) -> Zsum n (fun k => if f k then c k * b k else 0) = Zsum n (fun k => c k * b k).
Proof. intros H. apply Zsum_ext. intros k Hk. destruct (f k) eqn:E; [reflexivity|]. rewrite (H k Hk E). ring. Qed.

Lemma images_dim d r : (d <= length Ds)%nat -> has_dim p (bounds_at p Ds Rs d r) (born r (img d)).
Proof.
  intros Hd. destruct (Nat.eq_dec d (length Ds)) as [E|Hne].
  - destruct (C23_aux rnd p max_rad n0 Ds Rs out Hp VC Hout) as (_ & _ & _ & HS). destruct (HS d Hd) as (_ & _ & _ & _ & _ & _ & _ & _ & HI). unfold img. rewrite (HI E). unfold born. cbn [filter length].
    exists (fun _ _ => 0). split; [intros; lia|]. split; [|intros; lia]. intros v (w & _ & Hw). exists (fun _ => 0). intros i. rewrite <- Hw. unfold bd_of. rewrite (csize_top p max_rad n0 Ds Rs VC) by lia. reflexivity.
  - destruct (C22 d ltac:(lia)) as (_ & _ & _ & _ & HB & HS & HI). fold (img d) in *. set (g := colv (b_coords (nth d (ph_im out) empty_basis))) in *.
    unfold born. rewrite <- (filter_nth (fun b => fst b <=? r) (0, 0)). apply (dim_select _ _ g).
    + intros k Hk Hf. apply HB; [exact Hk|]. apply Z.leb_le. exact Hf.
    + intros v Hv. destruct (HS r v Hv) as (c & Hc & E). exists c. intros i. apply iffc. rewrite E. f_equal. symmetry. apply (sel_sum_eq _ c (fun k => g k i) (fun k => fst (nth k (img d) (0, 0)) <=? r)). intros k _ Hf. apply Hc. apply Z.leb_gt. exact Hf.
    + intros c Hc k Hk Hf. apply iff0. specialize (HI (fun k => if fst (nth k (img d) (0, 0)) <=? r then c k else 0)). cbv beta in HI.
      assert (Y : (if fst (nth k (img d) (0, 0)) <=? r then c k else 0) mod p = 0); [|rewrite Hf in Y; exact Y]. apply HI; [|exact Hk]. intros i. apply iff0. rewrite <- (Hc i). apply cong_eq.
      apply Zsum_ext. intros j _. destruct (fst (nth j (img d) (0, 0)) <=? r); ring.
Qed.

(** Chains are cycles and preimages of boundaries. *)
Lemma rank_nullity d r z : (d < length Ds)%nat -> has_dim p (cycle_at p Ds Rs (S d) r) z -> has_dim p (chain_at p Rs (S d) r) (z + born r (img d)).
Proof.
  intros Hd (b & B1 & B2 & B3). destruct (C22 d Hd) as (_ & _ & _ & HP & _ & HS & HI). fold (img d) in *. set (g := colv (b_coords (nth d (ph_im out) empty_basis))) in *. set (q := colv (nth (S d) (ph_preim out) (Mat 0 []))) in *.
  set (m := length (img d)) in *. pose (F := fun x : Z * Z => fst x <=? r). pose (f := fun k => (Nat.ltb k z || F (nth (k - z) (img d) (0%Z, 0%Z)))%bool). pose (G := fun k => if Nat.ltb k z then b k else q (k - z)%nat).
  assert (Lz : forall k, (k < z)%nat -> Nat.ltb k z = true) by (intros; apply Nat.ltb_lt; assumption).
  assert (Lm : forall k, Nat.ltb (z + k) z = false) by (intros; apply Nat.ltb_ge; lia).
  assert (EL : length (filter f (seq 0 (z + m))) = (z + born r (img d))%nat).
  { rewrite seq_app, filter_app, app_length. f_equal.
    - rewrite <- (seq_length z 0) at 2. apply filter_len_all. intros k Hk. apply in_seq in Hk. unfold f. rewrite Lz by lia. reflexivity.
    - unfold born. fold F. rewrite <- (filter_nth F (0, 0)). fold m. cbn [plus]. clear. assert (H : forall a l, length (filter f (map (fun k => (a + k)%nat) l)) = length (filter (fun k => f (a + k)%nat) l)).
      { intros a l. induction l as [|x l IH]; [reflexivity|]. cbn [map filter]. destruct (f (a + x)%nat); cbn [length]; lia. }
      replace (seq z m) with (map (fun k => (z + k)%nat) (seq 0 m)) by (clear; revert z; induction m as [|m IH] using nat_ind; intros z; [reflexivity|]; rewrite !seq_S, map_app, IH; reflexivity).
      rewrite H. f_equal. apply filter_ext. intros k. unfold f. replace (Nat.ltb (z + k) z) with false by (symmetry; apply Nat.ltb_ge; lia). replace (z + k - z)%nat with k by lia. reflexivity. }
  assert (ES : forall c i, Zsum (z + m) (fun k => if f k then c k * G k i else 0) = Zsum z (fun k => c k * b k i) + Zsum m (fun k => (if F (nth k (img d) (0, 0)) then c (z + k)%nat else 0) * q k i)).
  { intros c i. rewrite Zsum_app. f_equal; apply Zsum_ext; intros k Hk; unfold f, G.
    - rewrite Lz by lia. reflexivity.
    - rewrite Lm. replace (z + k - z)%nat with k by lia. cbn [orb]. destruct (F _); ring. }
  rewrite <- EL. apply (dim_select _ _ G).
  - intros k Hk Hf. unfold f in Hf. unfold G. destruct (Nat.ltb_spec k z) as [L|L]; [apply B1; exact L|]. cbn [orb] in Hf. unfold F in Hf. apply Z.leb_le in Hf.
    intros i Hi. destruct (HP (k - z)%nat ltac:(lia)) as (_ & HC & _). destruct (HC i Hi) as [X Y]. split; [exact X|]. unfold bbirth in Y. lia.
  - intros v Hv. destruct (HS r (bd_of Ds Rs (S d) v)) as (c & Hc & Ec); [exists v; split; [exact Hv|reflexivity]|].
    assert (CY : cycle_at p Ds Rs (S d) r (fun i => v i - Zsum m (fun k => c k * q k i))).
    { split.
      - intros i Hi. destruct (Z.eq_dec (v i mod p) 0) as [H0|H0]; [|apply Hv; exact H0]. destruct (cong_dec p (Zsum m (fun k => c k * q k i)) 0) as [H|H].
        + elim Hi. apply iff0. rewrite (proj1 (iff0 _) H0), H. reflexivity.
        + assert (X : exists k, (k < m)%nat /\ ~ cong p (c k * q k i) 0).
          { clear - H p1. induction m as [|m' IH]; [elim H; reflexivity|]. destruct (cong_dec p (c m' * q m' i) 0) as [Y|Y]; [|exists m'; split; [lia|exact Y]].
            destruct IH as (k & Hk & X); [|exists k; split; [lia|exact X]]. intros Y'. apply H. cbn [Zsum]. rewrite Y, Y'. reflexivity. }
          destruct X as (k & Hk & X). destruct (HP k Hk) as (_ & HC & _). destruct (HC i) as [X1 X2]; [intros Y; apply X; rewrite (proj1 (iff0 _) Y); apply cong_eq; ring|]. split; [exact X1|].
          destruct (Z_le_gt_dec (bbirth (img d) k) r) as [L|L]; [lia|]. elim X. rewrite (Hc k) by lia. reflexivity.
      - intros i. apply iff0. assert (E1 : bd_of Ds Rs (S d) (fun i => v i - Zsum m (fun k => c k * q k i)) i = bd_of Ds Rs (S d) v i - Zsum m (fun k => c k * bd_of Ds Rs (S d) (q k) i)).
        { unfold bd_of. rewrite (Zsum_ext m _ (fun k => Zsum (csize Rs (S d)) (fun j => c k * (bd_entry Ds (S d) i j * q k j)))) by (intros; rewrite Zsum_scale; reflexivity).
          rewrite Zsum_swap, <- Zsum_sub. apply Zsum_ext. intros j _. rewrite (Zsum_ext m (fun k => c k * (bd_entry Ds (S d) i j * q k j)) (fun k => bd_entry Ds (S d) i j * (c k * q k j))) by (intros; ring). rewrite Zsum_scale. ring. }
        rewrite E1, (proj1 (iffc _ _) (Ec i)). rewrite (Zsum_cong p m (fun k => c k * bd_of Ds Rs (S d) (q k) i) (fun k => c k * g k i)); [apply cong_eq; ring|].
        intros k Hk. destruct (HP k Hk) as (_ & _ & E). rewrite (proj1 (iffc _ _) (E i)). reflexivity. }
    destruct (B2 _ CY) as [a Ha]. exists (fun k => if Nat.ltb k z then a k else c (k - z)%nat). intros i. rewrite ES.
    pose proof (proj1 (iffc _ _) (Ha i)) as X. rewrite (Zsum_ext z _ (fun k => a k * b k i)) by (intros k Hk; rewrite Lz by exact Hk; reflexivity).
    rewrite (Zsum_ext m _ (fun k => c k * q k i)).
    + destruct X as [t X]. exists t. lia.
    + intros k Hk. rewrite Lm. replace (z + k - z)%nat with k by lia. unfold F. destruct (_ <=? r) eqn:E; [reflexivity|]. apply Z.leb_gt in E. rewrite (Hc k) by exact E. reflexivity.
  - intros c Hc. assert (K : forall k, (k < m)%nat -> (if F (nth k (img d) (0, 0)) then c (z + k)%nat else 0) mod p = 0).
    { apply HI. intros i. apply iff0. set (e := fun k => if F (nth k (img d) (0, 0)) then c (z + k)%nat else 0) in *.
      assert (E1 : cong p (bd_of Ds Rs (S d) (fun i => Zsum z (fun k => c k * b k i) + Zsum m (fun k => e k * q k i)) i) 0).
      { unfold bd_of. apply Zsum_cong0. intros j _. rewrite <- ES, (Hc j). apply cong_eq. ring. }
      rewrite <- E1. assert (E2 : bd_of Ds Rs (S d) (fun i => Zsum z (fun k => c k * b k i) + Zsum m (fun k => e k * q k i)) i =
        Zsum z (fun k => c k * bd_of Ds Rs (S d) (b k) i) + Zsum m (fun k => e k * bd_of Ds Rs (S d) (q k) i)).
      { unfold bd_of. rewrite (Zsum_ext z (fun k => c k * _) (fun k => Zsum (csize Rs (S d)) (fun j => c k * (bd_entry Ds (S d) i j * b k j)))) by (intros; rewrite Zsum_scale; reflexivity).
        rewrite (Zsum_ext m (fun k => e k * _) (fun k => Zsum (csize Rs (S d)) (fun j => e k * (bd_entry Ds (S d) i j * q k j)))) by (intros; rewrite Zsum_scale; reflexivity).
        rewrite (Zsum_swap z), (Zsum_swap m), <- Zsum_add. apply Zsum_ext. intros j _. rewrite (Zsum_ext z (fun k => c k * (bd_entry Ds (S d) i j * b k j)) (fun k => bd_entry Ds (S d) i j * (c k * b k j))) by (intros; ring).
        rewrite (Zsum_ext m (fun k => e k * (bd_entry Ds (S d) i j * q k j)) (fun k => bd_entry Ds (S d) i j * (e k * q k j))) by (intros; ring). rewrite !Zsum_scale. ring. }
      rewrite E2. rewrite (Zsum_cong0 p z) by (intros k Hk; rewrite (proj1 (iff0 _) (proj2 (B1 k Hk) i)); apply cong_eq; ring). rewrite Z.add_0_l.
      apply Zsum_cong. intros k Hk. destruct (HP k Hk) as (_ & _ & E). rewrite (proj1 (iffc _ _) (E i)). reflexivity. }
    assert (KZ : forall k, (k < z)%nat -> c k mod p = 0).
    { apply B3. intros i. apply iff0. rewrite <- (Hc i), ES. rewrite (Zsum_cong0 p m) by (intros k Hk; rewrite (proj1 (iff0 _) (K k Hk)); apply cong_eq; ring). apply cong_eq. ring. }
    intros k Hk Hf. apply iff0. unfold f in Hf. destruct (Nat.ltb_spec k z) as [L|L]; [apply KZ; exact L|]. cbn [orb] in Hf. specialize (K (k - z)%nat ltac:(lia)). rewrite Hf in K. replace (z + (k - z))%nat with k in K by lia. exact K.
Qed.

Theorem count_cells d r : (d <= length Ds)%nat -> r < max_rad ->
  cells_at Rs d r = (count_bars (spans r r) (hom d) + born r (img d) + match d with O => 0 | S d' => born r (img d') end)%nat.
Proof.
  intros Hd Hr. destruct (C25_aux rnd p max_rad n0 Ds Rs out Hp VC Hout d r Hd Hr) as [(z & b & Hz & Hb) HB]. pose proof (HB z _ Hz (images_dim d r Hd)) as E.
  change (b_bars (nth d (ph_hom out) empty_basis)) with (hom d) in E. rewrite E. apply (has_dim_unique p Hp (chain_at p Rs d r)); [apply cells_dim|]. destruct d as [|d].
  - rewrite Nat.add_0_r. refine (has_dim_ext p _ _ _ _ Hz). intros v. split; [intros [H _]; exact H|]. intros H. split; [exact H|]. intros i. unfold bd_of. rewrite Zsum_0; [apply Zmod_0_l|]. intros; cbn [bd_entry]; ring.
  - apply rank_nullity; [lia|exact Hz].
Qed.

Theorem euler r : r < max_rad -> alternating (length Ds) (fun d => cells_at Rs d r) = alternating (length Ds) (fun d => count_bars (spans r r) (hom d)).
Proof.
  intros Hr. unfold alternating. assert (H : forall n, (n <= length Ds)%nat -> Zsum (S n) (fun d => (-1) ^ Z.of_nat d * Z.of_nat (cells_at Rs d r)) =
    Zsum (S n) (fun d => (-1) ^ Z.of_nat d * Z.of_nat (count_bars (spans r r) (hom d))) + (-1) ^ Z.of_nat n * Z.of_nat (born r (img n))).
  { induction n as [|n IH]; intros Hn.
    - cbn [Zsum]. rewrite (count_cells 0 r ltac:(lia) Hr). change (Z.of_nat 0) with 0. rewrite Z.pow_0_r. lia.
    - change (Zsum (S (S n)) ?f) with (Zsum (S n) f + f (S n)). cbv beta. rewrite (IH ltac:(lia)), (count_cells (S n) r Hn Hr). rewrite !Nat2Z.inj_add. rewrite (Nat2Z.inj_succ n) , Z.pow_succ_r by lia. ring. }
  rewrite (H (length Ds) (Nat.le_refl _)). destruct (C23_aux rnd p max_rad n0 Ds Rs out Hp VC Hout) as (_ & _ & _ & HS). destruct (HS (length Ds) (Nat.le_refl _)) as (_ & _ & _ & _ & _ & _ & _ & _ & HI).
  unfold img. rewrite (HI eq_refl). unfold born. cbn [filter length]. lia.
Qed.
End Euler.
