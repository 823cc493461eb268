(** * Bars of clouds which are near to each other *)
From Coq Require Import Permutation Znumtheory.
From Verif Require Import Base ListX Lin PH_lin IK_lin Spec_Simp Spec_PH Spec_Rips Rips_props Spec_Bars Spec_MV Bars Rips_bars Spec_Symm Rips_order Rips_dup Spec_Comp Rips_comp Spec_Stable.
Local Open Scope Z_scope.

(** ** More cycles and fewer boundaries *)
Lemma quotient_more {X : Type} p (Z1 B1 Z2 B2 : (X -> Z) -> Prop) n m g h : prime p -> Spec_Bars.subspace p B1 -> (forall v, Z1 v -> Z2 v) -> (forall v, B2 v -> B1 v) ->
  quotient_basis p Z1 B1 n g (fun _ => True) -> quotient_basis p Z2 B2 m h (fun _ => True) -> (n <= m)%nat.
Proof.
  intros Hp HB HZ HL (G1 & _ & G3) (_ & H2 & _). destruct (le_lt_dec n m) as [|Hlt]; auto. exfalso.
  assert (HA : exists a : nat -> nat -> Z, forall k, (k < n)%nat -> B1 (fun i => g k i - Zsum m (fun j => a k j * h j i))).
  { clear G3 Hlt. induction n as [|n IH].
    - exists (fun _ _ => 0). intros; lia.
    - destruct IH as [a Ha]; [intros k Hk; apply G1; lia|]. destruct (H2 (g n) (HZ _ (G1 n ltac:(lia) I))) as (c & _ & Hc). apply HL in Hc.
      exists (fun k => if Nat.eqb k n then c else a k). intros k Hk.
      destruct (Nat.eqb_spec k n) as [->|]; auto. apply Ha. lia. }
  destruct HA as [a Ha].
  destruct (kernel_exists p Hp m n (fun i k => a k i) Hlt) as (c & (k & Hk & Hne) & Hker).
  apply Hne. apply (mod_cong0 p Hp). apply (G3 c); auto; [tauto|].
  apply (HB n c (fun k i => g k i - Zsum m (fun j => a k j * h j i))); auto.
  intros i. apply (mod_cong p Hp). rewrite (Zsum_ext n (fun k => c k * (g k i - _)) (fun k => c k * g k i - Zsum m (fun j => c k * a k j * h j i))).
  - rewrite Zsum_sub, Zsum_swap. rewrite (Zsum_cong0 p m (fun j => Zsum n _)); [apply cong_eq; ring|].
    intros j Hj. rewrite Zsum_scale_r. rewrite (Hker j Hj). apply cong_eq. ring.
  - intros l Hl. rewrite Z.mul_sub_distr_l, <- Zsum_scale. f_equal. apply Zsum_ext. intros; ring.
Qed.

(** ** The same number of points *)
Section Same.
Variables (p e M : Z) (Dist Dist' : list (list Z)) (d : nat) (bars bars' : list (Z * Z)).
Hypothesis Hp : prime p.
Hypothesis He : 0 <= e.
Hypothesis HL : length Dist' = length Dist.
Hypothesis HD : forall u v, (u < v < length Dist)%nat -> Z.abs (Z.min M (dist Dist u v) - Z.min M (dist Dist' u v)) <= e.
Hypothesis HB : rips_barcode p Dist M d bars.
Hypothesis HB' : rips_barcode p Dist' M d bars'.

Lemma rips_out k r s : r + e < M -> rips Dist k r s -> rips Dist' k (r + e) s.
Proof.
  intros HM [(A & B & C & D) R]. split; [|lia]. rewrite HL. repeat split; auto. intros u v Hu Hv L. specialize (D u v Hu Hv L). pose proof (C v Hv). pose proof (HD u v ltac:(lia)). lia.
Qed.

Lemma rips_in k s t : 0 <= s < M -> rips Dist' k (s - e) t -> rips Dist k s t.
Proof.
  intros Hs [(A & B & C & D) R]. rewrite HL in *. split; [|lia]. repeat split; auto. intros u v Hu Hv L. specialize (D u v Hu Hv L). pose proof (C v Hv). pose proof (HD u v ltac:(lia)). lia.
Qed.

Lemma same_within : within_bars e M bars bars'.
Proof.
  intros r s Hrs Hs. destruct HB as [_ H1]. destruct HB' as [_ H2]. destruct (H1 r s ltac:(lia)) as (g & G). destruct (H2 (r + e) (s - e) ltac:(lia)) as (h & H). rewrite HL in H.
  refine (quotient_more p _ _ _ _ _ _ _ _ Hp _ _ _ G H).
  - apply s_bounds_sub. destruct Hp; lia.
  - intros v. apply s_cycle_mono. intros k t. apply rips_out. lia.
  - intros v. apply s_bounds_mono. intros k t Ht. apply rips_in; [|exact Ht]. destruct Ht. lia.
Qed.

Lemma same_zero s : d = 0%nat -> e <= s < M -> (count_bars (spans 0 s) bars <= count_bars (spans 0 (s - e)) bars')%nat.
Proof.
  intros -> Hs. destruct HB as [_ H1]. destruct HB' as [_ H2]. destruct (H1 0 s ltac:(lia)) as (g & G). destruct (H2 0 (s - e) ltac:(lia)) as (h & H). rewrite HL in H.
  refine (quotient_more p _ _ _ _ _ _ _ _ Hp _ _ _ G H).
  - apply s_bounds_sub. destruct Hp; lia.
  - intros v [V _]. split; [|lia]. intros t Ht. destruct (V t Ht) as [(A & B & C & D) R]. split; [|exact R]. rewrite HL. repeat split; auto.
    intros u w Hu Hw L. destruct t as [|x [|y t]]; try discriminate A. destruct Hu as [<-|[]], Hw as [<-|[]]. lia.
  - intros v. apply s_bounds_mono. intros k t Ht. apply rips_in; [lia|exact Ht].
Qed.
End Same.

Lemma count_some f bars : (0 < count_bars f bars)%nat -> exists x, In x bars /\ f x = true.
Proof. unfold count_bars. destruct (filter f bars) as [|x l] eqn:E; cbn; [lia|]. intros _. exists x. apply filter_In. rewrite E. left. reflexivity. Qed.
Lemma some_count f bars x : In x bars -> f x = true -> (0 < count_bars f bars)%nat.
Proof. intros H1 H2. unfold count_bars. pose proof (proj2 (filter_In f x bars) (conj H1 H2)) as H. destruct (filter f bars); [destruct H|cbn; lia]. Qed.

(** Counting gives a partner to every long bar. *)
Lemma within_followed e M bars bars' : (forall x, In x bars -> snd x <= M) -> within_bars e M bars bars' -> followed e bars bars'.
Proof.
  intros HM HW x Hx L. specialize (HW (fst x) (snd x - 1) ltac:(lia) ltac:(specialize (HM x Hx); lia)).
  assert (C : (0 < count_bars (spans (fst x) (snd x - 1)) bars)%nat).
  { apply (some_count _ _ x Hx). unfold spans. apply andb_true_iff. split; [apply Z.leb_le; lia|apply Z.ltb_lt; lia]. }
  destruct (count_some (spans (fst x + e) (snd x - 1 - e)) bars' ltac:(lia)) as (y & Hy & E). exists y. split; [exact Hy|].
  unfold spans in E. apply andb_true_iff in E. destruct E as [E1 E2]. apply Z.leb_le in E1. apply Z.ltb_lt in E2. lia.
Qed.

(** ** Any pairing of the points *)
Section Paired.
Variables (p e M : Z) (l l' : list nat) (Dist Dist' : list (list Z)) (d : nat) (bars bars' : list (Z * Z)).
Hypothesis Hp : prime p.
Hypothesis He : 0 <= e.
Hypothesis HS : dissimilarity Dist.
Hypothesis HS' : dissimilarity Dist'.
Hypothesis HP : paired e M l l' Dist Dist'.
Hypothesis HB : rips_barcode p Dist M d bars.
Hypothesis HB' : rips_barcode p Dist' M d bars'.

Lemma repeated_of D k : (forall v, In v k <-> (v < length D)%nat) -> repeated k D (dist_of D k).
Proof. intros H. split; [apply dist_of_length|split; [exact H|]]. intros u v L. apply dist_of_at; lia. Qed.

Let A : rips_barcode p (dist_of Dist l) M d bars.
Proof. destruct HS. apply (rips_repeat p l Dist); auto. apply repeated_of, (pr_left _ _ _ _ _ _ HP). Qed.
Let A' : rips_barcode p (dist_of Dist' l') M d bars'.
Proof. destruct HS'. apply (rips_repeat p l' Dist'); auto. apply repeated_of, (pr_right _ _ _ _ _ _ HP). Qed.
Let LL : length (dist_of Dist' l') = length (dist_of Dist l).
Proof. rewrite !dist_of_length. apply (pr_length _ _ _ _ _ _ HP). Qed.
Let N : forall u v, (u < v < length (dist_of Dist l))%nat -> Z.abs (Z.min M (dist (dist_of Dist l) u v) - Z.min M (dist (dist_of Dist' l') u v)) <= e.
Proof. intros u v H. rewrite dist_of_length in H. pose proof (pr_length _ _ _ _ _ _ HP). rewrite !dist_of_at by lia. apply (pr_near _ _ _ _ _ _ HP). exact H. Qed.
Let N' : forall u v, (u < v < length (dist_of Dist' l'))%nat -> Z.abs (Z.min M (dist (dist_of Dist' l') u v) - Z.min M (dist (dist_of Dist l) u v)) <= e.
Proof. intros u v H. rewrite LL in H. specialize (N u v H). lia. Qed.

Theorem paired_near : near_bars e M bars bars'.
Proof.
  pose proof (same_within p e M _ _ d bars bars' Hp He LL N A A') as W. pose proof (same_within p e M _ _ d bars' bars Hp He (eq_sym LL) N' A' A) as W'.
  split; [exact W|split; [exact W'|split; eapply within_followed; [|exact W| |exact W']]].
  - intros x Hx. destruct HB as [H _]. specialize (H x Hx). lia.
  - intros x Hx. destruct HB' as [H _]. specialize (H x Hx). lia.
Qed.

Lemma all_lasting D b s : rips_barcode p D M 0 b -> count_bars (spans 0 s) b = count_bars (lasting s) b.
Proof.
  intros H. unfold count_bars. f_equal. apply filter_ext_in. intros x Hx. unfold spans, lasting. rewrite (comp_born p D M b x Hp H Hx). reflexivity.
Qed.

Theorem paired_deaths : d = 0%nat -> near_deaths e M bars bars'.
Proof.
  intros Hd s Hs. pose proof HB as H. pose proof HB' as H'. rewrite Hd in H, H'. rewrite <- !(all_lasting _ _ _ H), <- !(all_lasting _ _ _ H').
  split; [exact (same_zero p e M _ _ d bars bars' Hp He LL N A A' s Hd Hs)|exact (same_zero p e M _ _ d bars' bars Hp He (eq_sym LL) N' A' A s Hd Hs)].
Qed.
End Paired.

(** ** Samples *)
Lemma cover_choice e idx Dist : covering e idx Dist -> forall n, (n <= length Dist)%nat -> exists g, length g = n /\ forall v, (v < n)%nat -> (nth v g 0 < length idx)%nat /\ dist Dist v (nth (nth v g 0%nat) idx 0%nat) <= e.
Proof.
  intros H n. induction n as [|n IH]; intros Hn; [exists []; split; [reflexivity|intros; lia]|]. destruct (IH ltac:(lia)) as (g & L & G).
  destruct (H n ltac:(lia)) as (u & Hu & E). destruct (In_nth idx u 0%nat Hu) as (k & Hk & <-). exists (g ++ [k]). split; [rewrite app_length, L; cbn; lia|]. intros v Hv.
  destruct (Nat.eq_dec v n) as [->|Ne]; [rewrite app_nth2, L, Nat.sub_diag by lia; cbn; auto|rewrite app_nth1 by lia; apply G; lia].
Qed.

Lemma sampled_dissimilarity idx Dist Dist' : dissimilarity Dist -> sampled idx Dist Dist' -> dissimilarity Dist'.
Proof.
  intros [H1 H2] (L & HI & HD). split.
  - intros u v Hu Hv. rewrite !HD by lia. apply H1; apply HI, nth_In; lia.
  - intros u Hu. rewrite HD by lia. apply H2, HI, nth_In. lia.
Qed.

(** Every point is paired with a near one of the sample. *)
Theorem sample_paired e M idx Dist Dist' : metric Dist -> sampled idx Dist Dist' -> covering e idx Dist -> exists l l', paired (2 * e) M l l' Dist Dist'.
Proof.
  intros [[Hs H0] HT] (HL & HI & HD) HC. destruct (cover_choice e idx Dist HC (length Dist) (le_n _)) as (g & Lg & G).
  exists (seq 0 (length Dist) ++ idx), (g ++ seq 0 (length idx)).
  assert (LT : forall i, (i < length Dist + length idx)%nat -> let a := nth i (seq 0 (length Dist) ++ idx) 0%nat in let b := nth i (g ++ seq 0 (length idx)) 0%nat in
    (a < length Dist)%nat /\ (b < length idx)%nat /\ dist Dist a (nth b idx 0%nat) <= e \/ (length Dist = 0)%nat).
  { intros i Hi. destruct (le_lt_dec (length Dist) 0) as [Z0|P0]; [right; lia|]. left. assert (E0 : 0 <= e).
    { destruct (G 0%nat P0) as [K E]. set (u := nth (nth 0%nat g 0%nat) idx 0%nat) in *. assert (Hu : (u < length Dist)%nat) by (apply HI, nth_In, K).
      pose proof (HT 0%nat u 0%nat P0 Hu P0). rewrite (Hs u 0%nat Hu P0), (H0 0%nat P0) in H. lia. }
    destruct (le_lt_dec (length Dist) i) as [Hge|Hlt].
    - rewrite !app_nth2 by (rewrite ?seq_length; lia). rewrite seq_length, Lg, seq_nth by lia. cbn [Nat.add].
      assert (Hu : (nth (i - length Dist) idx 0 < length Dist)%nat) by (apply HI, nth_In; lia). split; [exact Hu|]. split; [lia|]. rewrite H0 by exact Hu. exact E0.
    - rewrite !app_nth1 by (rewrite ?seq_length; lia). rewrite seq_nth by lia. cbn [Nat.add]. destruct (G i Hlt). auto. }
  split.
  - rewrite !app_length, !seq_length. lia.
  - intros v. rewrite in_app_iff, in_seq. split; [intros [H|H]; [lia|auto]|intros H; left; lia].
  - intros v. rewrite in_app_iff, in_seq, HL. split; [|intros H; right; lia]. intros [H|H]; [|lia]. destruct (In_nth g v 0%nat H) as (k & Hk & <-). apply G. lia.
  - intros i j Hij. rewrite app_length, seq_length in Hij. destruct (LT i ltac:(lia)) as [(A1 & A2 & A3)|Z0].
    2: { assert (idx = []) by (destruct idx as [|x idx']; [reflexivity|exfalso; specialize (HI x (or_introl eq_refl)); lia]). subst idx. cbn in Hij. lia. }
    destruct (LT j ltac:(lia)) as [(B1 & B2 & B3)|Z0]; [|lia].
    set (a := nth i (seq 0 (length Dist) ++ idx) 0%nat) in *. set (b := nth j (seq 0 (length Dist) ++ idx) 0%nat) in *.
    set (a' := nth i (g ++ seq 0 (length idx)) 0%nat) in *. set (b' := nth j (g ++ seq 0 (length idx)) 0%nat) in *.
    rewrite HD by assumption. set (x := nth a' idx 0%nat) in *. set (y := nth b' idx 0%nat) in *.
    assert (X : (x < length Dist)%nat) by (apply HI, nth_In, A2). assert (Y : (y < length Dist)%nat) by (apply HI, nth_In, B2).
    pose proof (HT a x b A1 X B1). pose proof (HT x y b X Y B1). pose proof (HT x a y X A1 Y). pose proof (HT a b y A1 B1 Y). pose proof (Hs x a X A1). pose proof (Hs y b Y B1). lia.
Qed.
