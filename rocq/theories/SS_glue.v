(** * From families of local chains to chains of the cloud *)
From Verif Require Import Base ListX SortX Lin Gauss_model Gauss_arith Basis_model PH_model PH_lin PH_props Simp_model Spec_Simp Simp_lists Simp_diff Simp_props
  Spec_PH Spec_Rips Rips_bd Rips_chain Rips_props LC_model Spec_LC LC_props SS_model Spec_SS SS_inv SS_page SS_cech SS_lift SS_zig SS_first SS_fplift SS_double
  IK_lin IK_abs Spec_Bars Bars MPH_bars Bars_complex Spec_E2 SS_rows.
From Coq Require Import Sorted Permutation Znumtheory.
Local Open Scope Z_scope.

(** First number below [n] passing [f], or [n]. *)
Fixpoint first_below (f : nat -> bool) (n : nat) : nat :=
  match n with O => O | S n' => let k := first_below f n' in if Nat.ltb k n' then k else if f n' then n' else n end.

Lemma first_below_ok f n : (first_below f n <= n)%nat /\ ((first_below f n < n)%nat -> f (first_below f n) = true) /\ forall k, (k < first_below f n)%nat -> f k = false.
Proof.
  induction n as [|n (H1 & H2 & H3)]; [cbn; split; [lia|]; split; intros; lia|]. cbn [first_below].
  destruct (Nat.ltb_spec (first_below f n) n) as [H|H]; [split; [lia|]; split; auto|].
  assert (E : first_below f n = n) by lia. destruct (f n) eqn:Ef; [split; [lia|]; split; [auto|]; intros k Hk; apply H3; lia|].
  split; [lia|]. split; [lia|]. intros k Hk. destruct (Nat.eq_dec k n) as [->|Hne]; auto. apply H3. lia.
Qed.

Lemma first_below_lt f n k : (k < n)%nat -> f k = true -> (first_below f n <= k)%nat.
Proof.
  intros Hk Hf. destruct (first_below_ok f n) as (_ & _ & H). destruct (Nat.lt_ge_cases k (first_below f n)) as [X|X]; auto. rewrite H in Hf by auto. discriminate.
Qed.

Lemma Zsum_ind n k (x : Z) : (k < n)%nat -> Zsum n (fun i => if Nat.eqb i k then x else 0) = x.
Proof.
  intros Hk. rewrite (Zsum_single _ k); auto; [rewrite Nat.eqb_refl; reflexivity|]. intros j _ Hj. apply Nat.eqb_neq in Hj. rewrite Hj. reflexivity.
Qed.

Section Glue.
Variables (argsort : list Z -> list nat) (rnd : Z -> Z) (Dist : list (list Z)) (max_r max_dim p : Z)
  (IN : list (list (list nat))) (n0 : nat) (nerve : list (list simplex)).
Hypothesis HI : mv_input argsort Dist max_r max_dim p IN n0 nerve.
Variable S : ss.
Hypothesis PO : page_ok argsort rnd Dist max_r max_dim p IN n0 nerve S.
Let m := Z.to_nat max_dim.
Let Hp := mv_prime _ _ _ _ _ _ _ _ HI.
Let HC := mv_cover _ _ _ _ _ _ _ _ HI.
Let lev n := level n0 nerve n.
Let G := simplices IN S.
Let N := length Dist.
Let p1 : 1 < p. Proof. destruct Hp. lia. Qed.
Let p_pos : 0 < p. Proof. lia. Qed.
Let iff0 a : a mod p = 0 <-> cong p a 0. Proof. apply mod_cong_0. exact p_pos. Qed.
Let ciff a b : cong p a b <-> a mod p = b mod p. Proof. symmetry. apply (cong_mod_iff p _ _ p_pos). Qed.

Lemma lev0_len : length (lev 0) = n0.
Proof. unfold lev. cbn [level]. rewrite map_length, seq_length. reflexivity. Qed.
Lemma lev0_nth k : (k < n0)%nat -> nth k (lev 0) [] = [k].
Proof. intros Hk. unfold lev. cbn [level]. rewrite (nth_indep _ [] [0%nat]) by (rewrite map_length, seq_length; auto). rewrite (map_nth (fun v => [v])), seq_nth by auto. reflexivity. Qed.
Lemma nerve_pos : (0 < length nerve)%nat.
Proof. pose proof (cov_dim _ _ _ _ HC). destruct nerve; [congruence|cbn; lia]. Qed.

Lemma GN n k d : (n < length nerve)%nat -> (k < length (lev n))%nat -> NoDup (G n k d).
Proof. intros Hn Hk. apply (G_NoDup _ _ _ _ _ _ _ _ _ HI S PO n k Hn Hk d). Qed.
Lemma GI n k d T : (n < length nerve)%nat -> (k < length (lev n))%nat -> (d <= m)%nat -> In T (G n k d) <-> clique N (near Dist max_r) d T /\ incl T (ins_of IN n k).
Proof. intros Hn Hk Hd. apply (G_In _ _ _ _ _ _ _ _ _ HI S PO n k Hn Hk d T Hd). Qed.

(** The chain of the cloud which is the sum of the chains over the elements of the cover. *)
Definition glue (d : nat) (v : nat * nat -> Z) (s : list nat) : Z := Zsum n0 (fun k => on_simplices (G 0 k d) (part v k) s).

Lemma glue_lin d M (c : nat -> Z) b s : glue d (fun x => Zsum M (fun t => c t * b t x)) s = Zsum M (fun t => c t * glue d (b t) s).
Proof.
  unfold glue. rewrite (Zsum_ext n0 _ (fun k => Zsum M (fun t => c t * on_simplices (G 0 k d) (part (b t) k) s))).
  - rewrite Zsum_swap. apply Zsum_ext. intros t _. apply Zsum_scale.
  - intros k _. apply (on_simplices_lin (G 0 k d) M c (fun t => part (b t) k) s).
Qed.

Lemma glue_cong d u v s : (forall x, cong p (u x) (v x)) -> cong p (glue d u s) (glue d v s).
Proof. intros H. unfold glue. apply Zsum_cong. intros k _. apply on_simplices_cong. intros i _. apply H. Qed.

Lemma glue_cong_in d u v s : (forall k j, (k < n0)%nat -> cong p (u (k, j)) (v (k, j))) -> cong p (glue d u s) (glue d v s).
Proof. intros H. unfold glue. apply Zsum_cong. intros k Hk. apply on_simplices_cong. intros i _. apply H. auto. Qed.

Lemma glue_sub d u v s : glue d (fun x => u x - v x) s = glue d u s - glue d v s.
Proof. unfold glue. rewrite <- Zsum_sub. apply Zsum_ext. intros k _. apply on_simplices_sub. Qed.

Lemma glue_chain d r v : (forall k, (k < n0)%nat -> local_chain p Dist IN S 0 d k r (part v k)) -> s_chain p (fun d => rips Dist d r) d (glue d v).
Proof.
  intros Hv s Hs. unfold glue in Hs. destruct (Zsum_nz_mod p n0 (fun k => on_simplices (G 0 k d) (part v k) s)) as (k & Hk & Hne); auto.
  destruct (on_simplices_cases (G 0 k d) (part v k) s) as [(i & Hi & E & Ei)|[_ E]]; [apply GN; [apply nerve_pos|rewrite lev0_len; auto]| |].
  - rewrite Ei in Hne. destruct (Hv k Hk i Hne) as [_ H]. fold G in H. rewrite E in H. exact H.
  - rewrite E, Zmod_0_l in Hne. congruence.
Qed.

Lemma simplicial_bd_Zsum n M (c : nat -> list nat -> Z) t : simplicial_bd n (fun s => Zsum M (fun k => c k s)) t = Zsum M (fun k => simplicial_bd n (c k) t).
Proof.
  unfold simplicial_bd. rewrite Zsum_swap. apply Zsum_ext. intros v _. destruct (memn v t); [rewrite Zsum_0; auto|]. rewrite Zsum_scale. reflexivity.
Qed.

(** Gluing commutes with boundaries, up to the sign of the matrices of the code. *)
Lemma glue_bd d w t : (d < m)%nat -> increasing t -> cong p (simplicial_bd N (glue (Datatypes.S d) w) t) (dsign d * glue d (fun x => local_bd IN S 0 d (fst x) (part w (fst x)) (snd x)) t).
Proof.
  intros Hd Ht. unfold glue at 1. rewrite simplicial_bd_Zsum. unfold glue. rewrite <- Zsum_scale. apply Zsum_cong. intros k Hk.
  assert (Hk' : (k < length (lev 0))%nat) by (rewrite lev0_len; auto). pose proof nerve_pos as Hn.
  rewrite (simplicial_bd_sum N); [|apply GN; auto|auto|].
  2:{ intros s Hs. apply (GI 0 k (Datatypes.S d) s Hn Hk' ltac:(lia)) in Hs. destruct Hs as ((_ & A & B & _) & _). auto. }
  destruct (on_simplices_cases (G 0 k d) (part (fun x => local_bd IN S 0 d (fst x) (part w (fst x)) (snd x)) k) t (GN 0 k d Hn Hk')) as [(j & Hj & E & ->)|[Hno ->]].
  - unfold part at 2. cbn [fst snd]. assert (X : cong p (local_bd IN S 0 d k (part w k) j) (dsign d * Zsum (length (G 0 k (Datatypes.S d))) (fun i => bdc (nth j (G 0 k d) []) (nth i (G 0 k (Datatypes.S d)) []) * part w k i)))
      by (apply (vbd_bdc _ _ _ _ _ _ _ _ _ HI S PO 0%nat d k (part w k) j Hn Hk' Hd Hj)).
    rewrite X, E, Z.mul_assoc, dsign_sq. apply cong_eq. ring.
  - rewrite Z.mul_0_r. apply Zsum_cong0. intros i Hi. assert (X : bdc t (nth i (G 0 k (Datatypes.S d)) []) = 0) by (apply (bdc_outside _ _ _ _ _ _ _ _ _ HI S PO 0%nat d k t i Hn Hk' Hd Hno Hi)).
    rewrite X. apply cong_eq. ring.
Qed.

(** ** The edges of the nerve *)
Definition ea (s : nat) : nat := nth 0 (nth s (lev 1) []) 0%nat.
Definition eb (s : nat) : nat := nth 1 (nth s (lev 1) []) 0%nat.

Lemma edge_ok s : (s < length (lev 1))%nat -> nth s (lev 1) [] = [ea s; eb s] /\ (ea s < eb s < n0)%nat.
Proof.
  intros Hs. destruct (cov_simp _ _ _ _ HC) as (Hwf & _). destruct (Hwf 1%nat (nth s (lev 1) [])) as (H1 & H2 & H3); [apply nth_In; exact Hs|].
  unfold ea, eb. destruct (nth s (lev 1) []) as [|a [|b [|]]]; cbn in H1; try lia. cbn [nth]. split; [reflexivity|]. split; [|apply H3; cbn; auto].
  unfold increasing in H2. inversion H2 as [|? ? ? F]; subst. inversion F; auto.
Qed.

Let nb k s := nerve_bd n0 nerve 0 k s.
Lemma nb_edge k s : (k < n0)%nat -> (s < length (lev 1))%nat -> nb k s = (if Nat.eqb k (ea s) then 1 else 0) - (if Nat.eqb k (eb s) then 1 else 0).
Proof.
  intros Hk Hs. unfold nb, nerve_bd. fold (lev 0) (lev 1). rewrite lev0_nth by auto. destruct (edge_ok s Hs) as [-> _]. unfold coeff. cbn [length Zsum].
  change (facet 0 [ea s; eb s]) with [eb s]. change (facet 1 [ea s; eb s]) with [ea s]. change (Z.of_nat 0) with 0. change (Z.of_nat 1) with 1.
  destruct (list_eq_dec Nat.eq_dec [eb s] [k]) as [E1|E1], (list_eq_dec Nat.eq_dec [ea s] [k]) as [E2|E2], (Nat.eqb_spec k (ea s)), (Nat.eqb_spec k (eb s)); try congruence; reflexivity.
Qed.

Lemma nb_sum s : (s < length (lev 1))%nat -> Zsum n0 (fun k => nb k s) = 0.
Proof.
  intros Hs. rewrite (Zsum_ext n0 _ (fun k => (if Nat.eqb k (ea s) then 1 else 0) - (if Nat.eqb k (eb s) then 1 else 0))) by (intros k Hk; apply nb_edge; auto).
  destruct (edge_ok s Hs) as [_ H]. rewrite Zsum_sub, !Zsum_ind by lia. reflexivity.
Qed.

Lemma lev_last n : (length nerve < n)%nat -> lev n = [].
Proof. intros H. unfold lev. destruct n as [|n]; [lia|]. cbn [level]. apply nth_overflow. lia. Qed.

(** Cech images glue to zero. *)
Lemma glue_cech d w s : level n0 nerve (length nerve) = [] -> (d <= m)%nat -> glue d (fam_cech IN n0 nerve S d 0 w) s = 0.
Proof.
  intros Htop Hd. unfold glue. pose proof nerve_pos as Hn.
  rewrite (Zsum_ext n0 _ (fun k => (-1) ^ Z.of_nat d * Zsum (length (lev 1)) (fun t => nb k t * on_simplices (G 1 t d) (part w t) s))).
  2:{ intros k Hk. unfold on_simplices at 1. rewrite (Zsum_ext (length (G 0 k d)) _ (fun i => if list_eq_dec Nat.eq_dec (nth i (G 0 k d) []) s then cech_image n0 nerve IN S 0 d k (part w) i else 0)).
      2:{ intros i Hi. destruct (list_eq_dec _ _ _); auto. unfold part, fam_cech. cbn [fst snd]. change (length (level n0 nerve 0)) with (length (lev 0)). rewrite lev0_len. apply Nat.ltb_lt in Hk. rewrite Hk. reflexivity. }
      change (on_simplices (G 0 k d) (cech_image n0 nerve IN S 0 d k (part w)) s = (-1) ^ Z.of_nat d * Zsum (length (lev 1)) (fun t => nb k t * on_simplices (G 1 t d) (part w t) s)).
      destruct (Nat.lt_ge_cases 1 (length nerve)) as [H1|H1].
      - apply (ci_global _ _ _ _ _ _ _ _ _ HI S PO 0%nat d k (part w) s H1); [change (length (level n0 nerve 0)) with (length (lev 0)); rewrite lev0_len; auto|exact Hd].
      - assert (E : lev 1 = []). { unfold lev. replace 1%nat with (length nerve) by lia. exact Htop. }
        rewrite E. cbn [length Zsum]. rewrite Z.mul_0_r. unfold on_simplices. apply Zsum_0. intros i Hi. destruct (list_eq_dec _ _ _); auto.
        unfold cech_image. fold (lev 1). rewrite E. cbn [length Zsum]. ring. }
  rewrite Zsum_scale, Zsum_swap. rewrite Zsum_0; [ring|]. intros t Ht.
  rewrite (Zsum_ext n0 _ (fun k => on_simplices (G 1 t d) (part w t) s * nb k t)) by (intros; ring). rewrite Zsum_scale, nb_sum by auto. ring.
Qed.

(** ** Cutting a chain of the cloud *)
Definition inside (k : nat) (s : list nat) : bool := forallb (fun q => memn q (ins_of IN 0 k)) s.
Lemma inside_iff k s : inside k s = true <-> incl s (ins_of IN 0 k).
Proof.
  unfold inside. rewrite forallb_forall. split; intros H q Hq; specialize (H q Hq); apply memn_In; exact H.
Qed.
(** The first element of the cover which contains a simplex. *)
Definition home (s : list nat) : nat := first_below (fun k => inside k s) n0.

Definition cut (d : nat) (c : list nat -> Z) (x : nat * nat) : Z :=
  let s := nth (snd x) (G 0 (fst x) d) [] in
  if Nat.ltb (fst x) n0 && Nat.ltb (snd x) (length (G 0 (fst x) d)) && Nat.eqb (fst x) (home s) then c s else 0.


Lemma home_in s k : (k < n0)%nat -> incl s (ins_of IN 0 k) -> (home s <= k)%nat /\ incl s (ins_of IN 0 (home s)).
Proof.
  intros Hk H. assert (L : (home s <= k)%nat) by (apply first_below_lt; auto; apply inside_iff; auto). split; auto.
  destruct (first_below_ok (fun k => inside k s) n0) as (_ & X & _). apply inside_iff. apply X. fold (home s). lia.
Qed.

Lemma cut_at d c k s : (k < n0)%nat -> on_simplices (G 0 k d) (part (cut d c) k) s = if in_dec (list_eq_dec Nat.eq_dec) s (G 0 k d) then if Nat.eqb k (home s) then c s else 0 else 0.
Proof.
  intros Hk. pose proof nerve_pos as Hn. destruct (on_simplices_cases (G 0 k d) (part (cut d c) k) s) as [(i & Hi & E & ->)|[Hno ->]]; [apply GN; auto; rewrite lev0_len; auto| |].
  - destruct (in_dec _ _ _) as [_|X]; [|exfalso; apply X; rewrite <- E; apply nth_In; auto].
    unfold part, cut. cbn [fst snd]. rewrite E. apply Nat.ltb_lt in Hk, Hi. rewrite Hk, Hi. reflexivity.
  - destruct (in_dec _ _ _); [contradiction|reflexivity].
Qed.

Lemma rips_clique d r s : r < max_r -> rips Dist d r s -> clique N (near Dist max_r) d s.
Proof. intros Hr ((H1 & H2 & H3 & H4) & _). repeat split; auto. intros u v Hu Hv Huv. unfold near. specialize (H4 u v Hu Hv Huv). lia. Qed.

Lemma glue_cut d r c s : r < max_r -> (d <= m)%nat -> fine Dist max_r IN n0 d -> s_chain p (fun d => rips Dist d r) d c -> cong p (glue d (cut d c) s) (c s).
Proof.
  intros Hr Hd Hf Hc. unfold glue. rewrite (Zsum_ext n0 _ (fun k => if in_dec (list_eq_dec Nat.eq_dec) s (G 0 k d) then if Nat.eqb k (home s) then c s else 0 else 0)) by (intros k Hk; apply cut_at; auto).
  destruct (Z.eq_dec (c s mod p) 0) as [E|E].
  - apply iff0 in E. rewrite E. apply Zsum_cong0. intros k _. destruct (in_dec _ _ _); [|reflexivity]. destruct (Nat.eqb _ _); [exact E|reflexivity].
  - pose proof (rips_clique d r s Hr (Hc s E)) as Hcl. destruct (Hf s Hcl) as (k & Hk & Hin). destruct (home_in s k Hk Hin) as [H1 H2]. apply cong_eq.
    transitivity (Zsum n0 (fun i => if Nat.eqb i (home s) then c s else 0)); [|apply Zsum_ind; lia]. apply Zsum_ext. intros i Hi.
    destruct (Nat.eqb_spec i (home s)) as [->|Hne]; [|destruct (in_dec _ _ _); reflexivity].
    destruct (in_dec _ _ _) as [_|X]; [reflexivity|]. exfalso. apply X. apply GI; auto using nerve_pos. rewrite lev0_len. auto.
Qed.

Lemma cut_chain d r c k : s_chain p (fun d => rips Dist d r) d c -> local_chain p Dist IN S 0 d k r (part (cut d c) k).
Proof.
  intros Hc j Hj. unfold part, cut in Hj. cbn [fst snd] in Hj. fold G. destruct (Nat.ltb_spec k n0); [|exfalso; apply Hj; reflexivity].
  destruct (Nat.ltb_spec j (length (G 0 k d))) as [L|]; [|exfalso; apply Hj; reflexivity]. split; [exact L|].
  destruct (Nat.eqb _ _); [|exfalso; apply Hj; reflexivity]. apply Hc. exact Hj.
Qed.
End Glue.
