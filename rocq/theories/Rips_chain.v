(** * The Rips filtration is a valid input of [persistent_homology], and its chain
    spaces are those of the simplicial specification *)
From Verif Require Import Base ListX SortX Lin PH_model Simp_model Spec_Simp Simp_lists Simp_diff Simp_props
  Spec_PH Spec_Rips Rips_bd.
From Coq Require Import Sorted Permutation Znumtheory.
Local Open Scope Z_scope.

Lemma get_out D i j : wf_mat D -> (nrows D <= i \/ ncols D <= j)%nat -> get D i j = 0.
Proof.
  intros Hw H. unfold get, vget, col. destruct (lt_dec j (ncols D)) as [Hj|Hj].
  - apply nth_overflow. unfold wf_mat in Hw. rewrite Forall_forall in Hw.
    specialize (Hw _ (nth_In _ [] Hj)). unfold vec in *. lia.
  - rewrite (nth_overflow (cols D)) by (unfold ncols in Hj; lia). destruct i; reflexivity.
Qed.

Lemma nz_iff p a : 1 < p -> a mod p <> 0 <-> ~ cong p a 0.
Proof.
  intros Hp. rewrite cong_iff_mod by lia. rewrite Zmod_0_l. tauto.
Qed.

Lemma z_iff p a : 1 < p -> a mod p = 0 <-> cong p a 0.
Proof. intros Hp. rewrite cong_iff_mod by lia. rewrite Zmod_0_l. tauto. Qed.

Section Chains.
Variable argsort : list Z -> list nat.
Hypothesis Hsort : sorts argsort.
Variable Dist : list (list Z).
Hypothesis Hsq : square Dist.
Hypothesis Hnn : forall u v, (u < v < length Dist)%nat -> 0 <= dist Dist u v.
Variables max_r max_dim p : Z.
Hypothesis Hmax : 0 < max_r.
Hypothesis Hp : 1 < p.
Variables (Cs : list (list simplex)) (R : list (list Z)) (Ds : list mat).
Let n := length Dist.
Hypothesis HVR : vietoris_rips argsort Dist max_r max_dim = Ok (n, Cs, R).
Hypothesis HCD : complex_differentials n Cs p = Ok (n, Ds).
Let L d := level n Cs d.
Let m := length Cs.

Lemma m_pos : (0 < m)%nat.
Proof.
  destruct (vr_inv argsort Hsort Dist Hsq max_r max_dim Cs R n HVR) as (Ls & _ & E & _ & Hl & _).
  unfold m. rewrite E, map_length, Hl. lia.
Qed.

Lemma simp : simplicial n Cs.
Proof. apply (vr_simplicial argsort Hsort Dist Hsq max_r max_dim Cs R n HVR). Qed.

Lemma L_out d : (m < d)%nat -> L d = [].
Proof. intros H. unfold L. destruct d as [|d]; [lia|]. simpl. apply nth_overflow. unfold m in H. lia. Qed.

Lemma csize_L d : csize R d = length (L d).
Proof.
  destruct (C14_aux argsort Hsort Dist Hsq max_r max_dim Cs R n HVR) as (H0 & H1 & H2).
  unfold csize. destruct (le_lt_dec d m) as [Hd|Hd].
  - destruct d as [|d].
    + rewrite H1. unfold L. simpl. rewrite map_length, seq_length, repeat_length. auto.
    + apply (H2 (S d)). unfold m in Hd. lia.
  - rewrite L_out by auto. rewrite nth_overflow; [reflexivity|]. unfold m in Hd. lia.
Qed.

Lemma diff_facts : length Ds = m /\ forall d, (d < m)%nat -> let D := nth d Ds (Mat 0 []) in
  wf_mat D /\ nrows D = length (L d) /\ ncols D = length (L (S d)) /\
  forall i j, (i < length (L d))%nat -> (j < length (L (S d)))%nat ->
    get D i j = (dsign d * bdc (nth i (L d) []) (nth j (L (S d)) [])) mod p.
Proof.
  destruct (differentials_ok n Cs p Hp) as (Ds' & E & Hl & H); [|apply simp|].
  - pose proof m_pos. unfold m in H. intros E. rewrite E in H. simpl in H. lia.
  - rewrite HCD in E. injection E as <-. auto.
Qed.

Lemma crad_diam d i : (i < length (L (S d)))%nat -> diameter Dist (nth i (L (S d)) []) (crad R (S d) i) /\ crad R (S d) i < max_r.
Proof.
  intros Hi. destruct (C14_aux argsort Hsort Dist Hsq max_r max_dim Cs R n HVR) as (_ & _ & H).
  destruct (le_lt_dec (S d) m) as [Hd|Hd].
  - destruct (H (S d)) as (_ & H1 & _); [unfold m in Hd; lia|]. apply H1. auto.
  - rewrite L_out in Hi by auto. simpl in Hi. lia.
Qed.

Lemma crad_0 i : crad R 0 i = 0.
Proof.
  destruct (C14_aux argsort Hsort Dist Hsq max_r max_dim Cs R n HVR) as (_ & H & _).
  unfold crad. rewrite H. apply nth_repeat.
Qed.

Lemma L_wf d s : In s (L d) -> length s = S d /\ increasing s /\ forall v, In v s -> (v < n)%nat.
Proof. apply simp. Qed.

Lemma crad_nonneg d i : (i < length (L d))%nat -> 0 <= crad R d i.
Proof.
  destruct d as [|d]; intros Hi; [rewrite crad_0; lia|].
  destruct (crad_diam d i Hi) as [[(u & v & Hu & Hv & Huv & <-) _] _].
  destruct (L_wf (S d) (nth i (L (S d)) [])) as (_ & _ & H); [apply nth_In; auto|].
  apply Hnn. auto.
Qed.

Lemma entry_face d i j : (i < length (L d))%nat -> (j < length (L (S d)))%nat ->
  bdc (nth i (L d) []) (nth j (L (S d)) []) <> 0 -> crad R d i <= crad R (S d) j.
Proof.
  intros Hi Hj Hne. destruct (face_or_not (nth j (L (S d)) []) (nth i (L d) [])) as [(k & Hk & E)|Hno];
    [|rewrite bdc_other in Hne by auto; congruence].
  destruct (L_wf (S d) (nth j (L (S d)) [])) as (Hl & Hinc & _); [apply nth_In; auto|].
  destruct d as [|d].
  - rewrite crad_0. apply crad_nonneg. auto.
  - destruct (crad_diam d i Hi) as [[(u & v & Hu & Hv & Huv & <-) _] _].
    destruct (crad_diam (S d) j Hj) as [[_ H] _]. rewrite E in Hu, Hv.
    apply facet_In in Hu; auto. apply facet_In in Hv; auto. apply H; tauto.
Qed.

Lemma bd_entry_rel d i j : (i < length (L d))%nat -> (j < length (L (S d)))%nat ->
  bd_entry Ds (S d) i j = (dsign d * bdc (nth i (L d) []) (nth j (L (S d)) [])) mod p.
Proof.
  intros Hi Hj. destruct diff_facts as (_ & H). destruct (lt_dec d m) as [Hd|Hd].
  - destruct (H d Hd) as (_ & _ & _ & H1). apply H1; auto.
  - rewrite L_out in Hj by lia. simpl in Hj. lia.
Qed.

Lemma bd_entry_out d i j : (length (L d) <= i \/ length (L (S d)) <= j)%nat -> bd_entry Ds (S d) i j = 0.
Proof.
  intros H. cbn [bd_entry]. destruct diff_facts as (Hl & H1). destruct (lt_dec d m) as [Hd|Hd].
  - destruct (H1 d Hd) as (H2 & H3 & H4 & _). apply get_out; auto. rewrite H3, H4. auto.
  - rewrite nth_overflow by lia. unfold get, vget, col. simpl. destruct j; destruct i; reflexivity.
Qed.

Theorem rips_valid : valid_complex p max_r n Ds R.
Proof.
  destruct (C14_aux argsort Hsort Dist Hsq max_r max_dim Cs R n HVR) as (H0 & H1 & H2).
  destruct diff_facts as (Hl & HD). destruct simp as (Hwf & Hnd & Hcl).
  assert (Hns : forall d, (m <= d)%nat -> csize R (S d) = 0%nat).
  { intros d Hd. rewrite csize_L, L_out by lia. reflexivity. }
  constructor.
  - rewrite Hl. auto.
  - rewrite Hl. apply m_pos.
  - rewrite csize_L. unfold L. simpl. rewrite map_length, seq_length. auto.
  - intros d Hd. apply HD. lia.
  - intros d i j Hd. destruct (HD d) as (A & B & C & D); [lia|].
    destruct (lt_dec i (length (L d))) as [Hi|Hi]; [destruct (lt_dec j (length (L (S d)))) as [Hj|Hj]|].
    + rewrite D by auto. apply Z.mod_pos_bound. lia.
    + rewrite get_out by (auto; lia). lia.
    + rewrite get_out by (auto; lia). lia.
  - intros d Hd. rewrite csize_L. apply HD. lia.
  - intros d Hd. rewrite csize_L. apply HD. lia.
  - intros d Hd. rewrite !csize_L. intros E. destruct (L (S d)) as [|s l] eqn:E'; auto. exfalso.
    assert (Hs : In s (level n Cs (S d))) by (fold (L (S d)); rewrite E'; simpl; auto).
    apply (Hcl d s 0%nat) in Hs; [|lia]. fold (L d) in Hs. destruct (L d); simpl in *; [auto|lia].
  - intros d i j Hj. rewrite csize_L in *.
    destruct (lt_dec (S d) m) as [Hd|Hd]; [|rewrite L_out in Hj by lia; simpl in Hj; lia].
    destruct (lt_dec i (length (L d))) as [Hi|Hi].
    + apply (differentials_square n Cs p Ds Hp simp HCD d i j); auto.
    + rewrite Zsum_0; [apply Zmod_0_l|]. intros k Hk. rewrite bd_entry_out by lia. ring.
  - intros d i j Hij. rewrite csize_L in Hij. destruct (le_lt_dec d m) as [Hd|Hd]; [|rewrite L_out in Hij by lia; simpl in Hij; lia].
    destruct d as [|d]; [rewrite !crad_0; lia|]. destruct (H2 (S d)) as (_ & _ & H3); [unfold m in Hd; lia|].
    apply H3. exact Hij.
  - intros d i Hi. rewrite csize_L in Hi. destruct d as [|d]; [rewrite crad_0; lia|].
    apply crad_diam. auto.
  - intros i _. apply crad_0.
  - intros d i j Hj Hne. rewrite csize_L in Hj. destruct (lt_dec i (length (L d))) as [Hi|Hi].
    + apply entry_face; auto. intros E. apply Hne. rewrite bd_entry_rel, E by auto. rewrite Z.mul_0_r. apply Zmod_0_l.
    + exfalso. apply Hne. apply bd_entry_out. lia.
Qed.

(** ** Simplices of the specification = cells of the computed complex *)
Lemma rips_cell d r s : r < max_r ->
  rips_upto m Dist d r s <-> exists i, (i < length (L d))%nat /\ nth i (L d) [] = s /\ crad R d i <= r.
Proof.
  intros Hr. unfold rips_upto, rips. fold n. split.
  - intros [[Hc H0] Hd]. destruct d as [|d].
    + destruct Hc as (Hl & _ & Hv & _). destruct s as [|v [|w s]]; simpl in Hl; try lia.
      exists v. specialize (Hv v (or_introl eq_refl)). unfold L. simpl. rewrite map_length, seq_length.
      split; auto. split; [apply (nth_map_seq (fun v => [v])); auto|]. rewrite crad_0. auto.
    + assert (Hin : In s (L (S d))).
      { apply (clique_level argsort Hsort Dist Hsq max_r max_dim Cs R n HVR); [|unfold m in Hd; lia].
        destruct Hc as (A & B & C & D). repeat split; auto. intros u v Hu Hv Huv. specialize (D u v Hu Hv Huv).
        unfold near. lia. }
      destruct (In_nth _ _ [] Hin) as (i & Hi & E). exists i. split; auto. split; auto.
      destruct (crad_diam d i Hi) as [[(u & v & Hu & Hv & Huv & <-) _] _]. rewrite E in *.
      destruct Hc as (_ & _ & _ & D). apply D; auto.
  - intros (i & Hi & E & Hci). assert (Hd : (d <= m)%nat).
    { destruct (le_lt_dec d m); auto. rewrite L_out in Hi by auto. simpl in Hi. lia. }
    pose proof (crad_nonneg d i Hi) as H0. split; auto. split; [|lia].
    assert (Hin : In s (L d)) by (rewrite <- E; apply nth_In; auto).
    destruct (L_wf d s Hin) as (A & B & C). repeat split; auto.
    intros u v Hu Hv Huv. destruct d as [|d].
    + destruct s as [|x [|y s]]; simpl in A; try lia. destruct Hu as [<-|[]], Hv as [<-|[]]. lia.
    + destruct (crad_diam d i Hi) as [[_ H] _]. rewrite E in H. specialize (H u v Hu Hv Huv). lia.
Qed.

(** ** Transport of chains *)
Let toS d (v : nat -> Z) := on_simplices (L d) v.
Let toI d (c : list nat -> Z) (i : nat) : Z := c (nth i (L d) []).
Let K r d s := rips_upto m Dist d r s.

Lemma L_NoDup d : NoDup (L d).
Proof. apply simp. Qed.

Lemma nil_not_L d : ~ In [] (L d).
Proof. intros H. apply L_wf in H. destruct H as (H & _). simpl in H. lia. Qed.

Lemma toS_chain d r v : r < max_r -> chain_at p R d r v -> s_chain p (K r) d (toS d v).
Proof.
  intros Hr H s Hs. apply rips_cell; auto. unfold toS in Hs.
  destruct (on_simplices_cases (L d) v s (L_NoDup d)) as [(i & Hi & E & Ev)|[_ E]]; rewrite ?E in Hs.
  - exists i. rewrite Ev in Hs. destruct (H i Hs) as [_ H']. auto.
  - exfalso. apply Hs. apply Zmod_0_l.
Qed.

Lemma toS_chain_inv d r v : r < max_r -> (forall i, (length (L d) <= i)%nat -> v i mod p = 0) ->
  s_chain p (K r) d (toS d v) -> chain_at p R d r v.
Proof.
  intros Hr Hz H i Hi. rewrite csize_L. destruct (lt_dec i (length (L d))) as [Hlt|Hge]; [|exfalso; apply Hi, Hz; lia].
  split; auto. specialize (H (nth i (L d) [])). unfold toS in H. rewrite on_simplices_nth in H by (auto using L_NoDup).
  apply H in Hi. apply rips_cell in Hi; auto. destruct Hi as (j & Hj & E & Hc).
  apply (proj1 (NoDup_nth (L d) []) (L_NoDup d)) in E; auto. subst. auto.
Qed.

Lemma toI_chain d r c : r < max_r -> s_chain p (K r) d c -> chain_at p R d r (toI d c).
Proof.
  intros Hr H i Hi. unfold toI in Hi. apply H in Hi. apply rips_cell in Hi; auto.
  destruct Hi as (j & Hj & E & Hc). rewrite csize_L. destruct (lt_dec i (length (L d))) as [Hlt|Hge].
  - apply (proj1 (NoDup_nth (L d) []) (L_NoDup d)) in E; auto. subst. auto.
  - exfalso. rewrite (nth_overflow (L d) _ (n := i)) in E by lia. apply (nil_not_L d). rewrite <- E. apply nth_In. auto.
Qed.

Lemma toS_toI d r c s : r < max_r -> s_chain p (K r) d c -> cong p (toS d (toI d c) s) (c s).
Proof.
  intros Hr H. unfold toS.
  destruct (on_simplices_cases (L d) (toI d c) s (L_NoDup d)) as [(i & Hi & E & Ev)|[Hn E]].
  - rewrite Ev. unfold toI. rewrite E. reflexivity.
  - rewrite E. destruct (cong_dec p (c s) 0) as [Hc|Hc]; [symmetry; auto|]. exfalso.
    apply Hn. apply (proj2 (nz_iff p _ Hp)) in Hc. apply H in Hc. apply rips_cell in Hc; auto.
    destruct Hc as (i & Hi & <- & _). apply nth_In. auto.
Qed.

Lemma toI_toS d r v i : chain_at p R d r v -> cong p (toI d (toS d v) i) (v i).
Proof.
  intros H. unfold toI, toS. destruct (lt_dec i (length (L d))) as [Hlt|Hge].
  - rewrite on_simplices_nth by (auto using L_NoDup). reflexivity.
  - rewrite nth_overflow by lia. rewrite on_simplices_out by apply nil_not_L.
    destruct (cong_dec p (v i) 0) as [Hc|Hc]; [symmetry; auto|]. exfalso.
    apply (proj2 (nz_iff p _ Hp)) in Hc. apply H in Hc. rewrite csize_L in Hc. lia.
Qed.

Lemma bd_rel d v i : (i < length (L d))%nat ->
  cong p (bd_of Ds R (S d) v i) (dsign d * simplicial_bd n (toS (S d) v) (nth i (L d) [])).
Proof.
  intros Hi. unfold bd_of, toS. destruct (L_wf d (nth i (L d) [])) as (_ & Hinc & _); [apply nth_In; auto|].
  rewrite (simplicial_bd_sum n (L (S d)) v) ; auto using L_NoDup.
  2:{ intros s Hs. destruct (L_wf (S d) s Hs) as (_ & A & B). auto. }
  rewrite csize_L, <- Zsum_scale. apply Zsum_cong. intros j Hj. rewrite bd_entry_rel by auto. rewrite cong_mod.
  apply cong_eq. ring.
Qed.

Lemma bd_out d v i : (length (L d) <= i)%nat -> bd_of Ds R (S d) v i = 0.
Proof. intros Hi. apply Zsum_0. intros j Hj. rewrite bd_entry_out by auto. ring. Qed.

Lemma sbd_out d v t : increasing t -> ~ In t (L d) -> simplicial_bd n (toS (S d) v) t = 0.
Proof.
  intros Ht Hn. unfold toS. rewrite (simplicial_bd_sum n (L (S d)) v); auto using L_NoDup.
  2:{ intros s Hs. destruct (L_wf (S d) s Hs) as (_ & A & B). auto. }
  apply Zsum_0. intros j Hj. rewrite bdc_other; [ring|]. intros k Hk E. apply Hn. rewrite E.
  destruct simp as (_ & _ & Hcl). apply Hcl; [apply nth_In; auto|].
  destruct (L_wf (S d) (nth j (L (S d)) [])) as (A & _); [apply nth_In; auto|]. lia.
Qed.

Lemma dsign_sq d : dsign d * dsign d = 1.
Proof. destruct d; reflexivity. Qed.

Lemma toS_scale d a v s : toS d (fun i => a * v i) s = a * toS d v s.
Proof.
  unfold toS, on_simplices. rewrite <- Zsum_scale. apply Zsum_ext. intros i _. destruct (list_eq_dec _ _ _); ring.
Qed.

Lemma sbd_scale a c t : simplicial_bd n (fun s => a * c s) t = a * simplicial_bd n c t.
Proof.
  unfold simplicial_bd. rewrite <- Zsum_scale. apply Zsum_ext. intros v _. destruct (memn v t); ring.
Qed.

Lemma cycle_to d r v : r < max_r -> cycle_at p Ds R d r v -> s_cycle p n (K r) d (toS d v).
Proof.
  intros Hr [Hc Hb]. split; [apply toS_chain; auto|]. intros Hd t Ht Hl. destruct d as [|d]; [lia|].
  apply z_iff; auto. destruct (in_dec (list_eq_dec Nat.eq_dec) t (L d)) as [Hin|Hn].
  - destruct (In_nth _ _ [] Hin) as (i & Hi & <-). pose proof (bd_rel d v i Hi) as E.
    specialize (Hb i). apply z_iff in Hb; auto. rewrite Hb in E.
    rewrite <- (Z.mul_1_l (simplicial_bd _ _ _)), <- (dsign_sq d), <- Z.mul_assoc, <- E. rewrite Z.mul_0_r. reflexivity.
  - rewrite sbd_out by auto. reflexivity.
Qed.

Lemma cycle_from d r v : r < max_r -> (forall i, (length (L d) <= i)%nat -> v i mod p = 0) ->
  s_cycle p n (K r) d (toS d v) -> cycle_at p Ds R d r v.
Proof.
  intros Hr Hz [Hc Hb]. split; [apply toS_chain_inv; auto|]. intros i. destruct d as [|d].
  - unfold bd_of. rewrite Zsum_0; [apply Zmod_0_l|]. intros; cbn [bd_entry]; ring.
  - apply z_iff; auto. destruct (lt_dec i (length (L d))) as [Hi|Hi].
    + rewrite (bd_rel d v i Hi). destruct (L_wf d (nth i (L d) [])) as (A & B & _); [apply nth_In; auto|].
      specialize (Hb ltac:(lia) _ B A). apply z_iff in Hb; auto. rewrite Hb, Z.mul_0_r. reflexivity.
    + rewrite bd_out by lia. reflexivity.
Qed.

Lemma bounds_chain_at d r v : bounds_at p Ds R d r v -> chain_at p R d r v.
Proof.
  intros (w & Hw & E) i Hi. rewrite <- E in Hi. rewrite csize_L.
  destruct (lt_dec i (length (L d))) as [Hlt|Hge].
  - split; auto. destruct (Z_le_gt_dec (crad R d i) r) as [|Hgt]; auto. exfalso. apply Hi. apply z_iff; auto.
    unfold bd_of. apply Zsum_cong0. rewrite csize_L. intros j Hj.
    destruct (Z.eq_dec (bdc (nth i (L d) []) (nth j (L (S d)) [])) 0) as [Hz|Hnz].
    + rewrite bd_entry_rel, Hz by auto. rewrite Z.mul_0_r, Zmod_0_l. reflexivity.
    + pose proof (entry_face d i j Hlt Hj Hnz). destruct (cong_dec p (w j) 0) as [Hc|Hc].
      * rewrite Hc. rewrite Z.mul_0_r. reflexivity.
      * apply (proj2 (nz_iff p _ Hp)) in Hc. apply Hw in Hc. lia.
  - exfalso. apply Hi. rewrite bd_out by lia. apply Zmod_0_l.
Qed.

Lemma bounds_to d r v : r < max_r -> bounds_at p Ds R d r v -> s_bounds p n (K r) d (toS d v).
Proof.
  intros Hr Hb. pose proof (bounds_chain_at d r v Hb) as Hc. split; [apply toS_chain; auto|].
  destruct Hb as (w & Hw & E). exists (toS (S d) (fun j => dsign d * w j)). split.
  - apply toS_chain; auto. intros j Hj. apply Hw. apply nz_iff; auto. apply nz_iff in Hj; auto.
    intros H. apply Hj. rewrite H, Z.mul_0_r. reflexivity.
  - intros t Ht Hl. apply cong_iff_mod; [lia|]. destruct (in_dec (list_eq_dec Nat.eq_dec) t (L d)) as [Hin|Hn].
    + destruct (In_nth _ _ [] Hin) as (i & Hi & <-). unfold toS at 2. rewrite on_simplices_nth by (auto using L_NoDup).
      specialize (E i). apply cong_iff_mod in E; [|lia]. rewrite <- E. rewrite (bd_rel d w i Hi).
      rewrite (simplicial_bd_cong p n _ (fun s => dsign d * toS (S d) w s)).
      * rewrite sbd_scale. reflexivity.
      * intros s. rewrite toS_scale. reflexivity.
    + rewrite sbd_out by auto. unfold toS. rewrite on_simplices_out by auto. reflexivity.
Qed.

Lemma bounds_from d r v : r < max_r -> (forall i, (length (L d) <= i)%nat -> v i mod p = 0) ->
  s_bounds p n (K r) d (toS d v) -> bounds_at p Ds R d r v.
Proof.
  intros Hr Hz [Hc (w & Hw & E)]. exists (fun j => dsign d * toI (S d) w j). split.
  - pose proof (toI_chain (S d) r w Hr Hw) as Hi. intros j Hj. apply Hi. apply nz_iff; auto. apply nz_iff in Hj; auto.
    intros H. apply Hj. rewrite H, Z.mul_0_r. reflexivity.
  - intros i. destruct (lt_dec i (length (L d))) as [Hi|Hi].
    + apply cong_iff_mod; [lia|]. rewrite (bd_rel d _ i Hi).
      destruct (L_wf d (nth i (L d) [])) as (A & B & _); [apply nth_In; auto|].
      specialize (E _ B A). apply cong_iff_mod in E; [|lia]. unfold toS in E. rewrite on_simplices_nth in E by (auto using L_NoDup).
      rewrite <- E. rewrite (simplicial_bd_cong p n _ (fun s => dsign d * w s)).
      * rewrite sbd_scale, Z.mul_assoc, dsign_sq, Z.mul_1_l. reflexivity.
      * intros s. rewrite toS_scale. rewrite (toS_toI (S d) r w s Hr Hw). reflexivity.
    + rewrite bd_out by lia. rewrite Hz by lia. apply Zmod_0_l.
Qed.

Lemma s_chain_cong d r c c' : (forall s, cong p (c s) (c' s)) -> s_chain p (K r) d c -> s_chain p (K r) d c'.
Proof. intros E H s Hs. apply H. apply nz_iff; auto. apply nz_iff in Hs; auto. rewrite E. auto. Qed.

Lemma s_cycle_cong d r c c' : (forall s, cong p (c s) (c' s)) -> s_cycle p n (K r) d c -> s_cycle p n (K r) d c'.
Proof.
  intros E [H H']. split; [eapply s_chain_cong; eauto|]. intros Hd t Ht Hl. specialize (H' Hd t Ht Hl).
  apply z_iff; auto. apply z_iff in H'; auto. rewrite <- H'. apply simplicial_bd_cong. intros s. symmetry. auto.
Qed.

Lemma s_bounds_cong d r c c' : (forall s, cong p (c s) (c' s)) -> s_bounds p n (K r) d c -> s_bounds p n (K r) d c'.
Proof.
  intros E [H (w & Hw & H')]. split; [eapply s_chain_cong; eauto|]. exists w. split; auto. intros t Ht Hl.
  rewrite (H' t Ht Hl). apply cong_iff_mod; [lia|]. auto.
Qed.

Lemma chain_small d r v i : chain_at p R d r v -> (length (L d) <= i)%nat -> v i mod p = 0.
Proof.
  intros H Hi. destruct (Z.eq_dec (v i mod p) 0); auto. exfalso. apply H in n0. rewrite csize_L in n0. lia.
Qed.

(** Bases of homology are transported. *)
Lemma basis_transport d r N g (alive : nat -> Prop) : r < max_r ->
  (forall k i, (length (L d) <= i)%nat -> g k i = 0) ->
  homology_basis p Ds R d r N g alive ->
  quotient_basis p (s_cycle p n (K r) d) (s_bounds p n (K r) d) N (fun k => toS d (g k)) alive.
Proof.
  intros Hr Hg (H1 & H2 & H3). split; [|split].
  - intros k Hk Ha. apply cycle_to; auto.
  - intros c Hc. pose proof Hc as [Hch _].
    assert (Hv : cycle_at p Ds R d r (toI d c)).
    { apply cycle_from; auto.
      - intros i Hi. apply (chain_small d r); auto. apply toI_chain; auto.
      - eapply s_cycle_cong; [|exact Hc]. intros s. symmetry. apply (toS_toI d r); auto. }
    destruct (H2 _ Hv) as (a & Ha & Hb). exists a. split; auto.
    apply (bounds_to d r _ Hr) in Hb. eapply s_bounds_cong; [|exact Hb]. intros s. unfold toS.
    rewrite on_simplices_sub, on_simplices_lin. apply cong_sub; [|reflexivity]. apply (toS_toI d r); auto.
  - intros a Ha Hb. apply (H3 a Ha). apply bounds_from; auto.
    + intros i Hi. rewrite Zsum_0; [apply Zmod_0_l|]. intros k _. rewrite Hg by auto. ring.
    + eapply s_bounds_cong; [|exact Hb]. intros s. unfold toS. rewrite on_simplices_lin. reflexivity.
Qed.

(** Dimensions are transported both ways. *)
Lemma has_dim_map {X Y} (S1 : (X -> Z) -> Prop) (S2 : (Y -> Z) -> Prop) (f : (X -> Z) -> Y -> Z) (g : (Y -> Z) -> X -> Z) N :
  (forall v, S1 v -> S2 (f v)) -> (forall w, S2 w -> S1 (g w)) ->
  (forall w, S2 w -> forall y, cong p (f (g w) y) (w y)) -> (forall v, S1 v -> forall x, cong p (g (f v) x) (v x)) ->
  (forall k c (b : nat -> X -> Z) y, cong p (f (fun x => Zsum k (fun i => c i * b i x)) y) (Zsum k (fun i => c i * f (b i) y))) ->
  (forall k c (b : nat -> Y -> Z) x, cong p (g (fun y => Zsum k (fun i => c i * b i y)) x) (Zsum k (fun i => c i * g (b i) x))) ->
  (forall v v', (forall x, cong p (v x) (v' x)) -> forall y, cong p (f v y) (f v' y)) ->
  (forall w w', (forall y, cong p (w y) (w' y)) -> forall x, cong p (g w x) (g w' x)) ->
  has_dim p S1 N -> has_dim p S2 N.
Proof.
  intros A B C D Lf Lg Cf Cg (b & H1 & H2 & H3). exists (fun k => f (b k)). split; [|split].
  - intros k Hk. apply A. auto.
  - intros w Hw. destruct (H2 (g w) (B w Hw)) as (c & Hc). exists c. intros y. apply cong_iff_mod; [lia|].
    rewrite <- (C w Hw y), <- Lf. apply Cf. intros x. apply cong_iff_mod; [lia|]. auto.
  - intros c Hc. apply H3. intros x. apply z_iff; auto.
    transitivity (Zsum N (fun k => c k * g (f (b k)) x)).
    { apply Zsum_cong. intros k Hk. rewrite (D (b k) (H1 k Hk) x). reflexivity. }
    rewrite <- Lg. rewrite (Cg _ (fun y => Zsum 0 (fun i => 0 * f (b i) y))).
    + rewrite Lg. reflexivity.
    + intros y. apply z_iff; auto.
Qed.

Lemma toI_lin d k c (b : nat -> list nat -> Z) i : toI d (fun y => Zsum k (fun l => c l * b l y)) i = Zsum k (fun l => c l * toI d (b l) i).
Proof. reflexivity. Qed.

Lemma dim_cycles d r N : r < max_r ->
  has_dim p (cycle_at p Ds R d r) N <-> has_dim p (s_cycle p n (K r) d) N.
Proof.
  intros Hr.
  assert (B : forall w, s_cycle p n (K r) d w -> cycle_at p Ds R d r (toI d w)).
  { intros w Hw. pose proof Hw as [Hch _]. apply cycle_from; auto.
    - intros i Hi. apply (chain_small d r); auto. apply toI_chain; auto.
    - eapply s_cycle_cong; [|exact Hw]. intros s. symmetry. apply (toS_toI d r); auto. }
  split; [apply (has_dim_map _ _ (toS d) (toI d))|apply (has_dim_map _ _ (toI d) (toS d))]; auto.
  all: try (intros; apply cycle_to; assumption).
  all: try (intros w [Hw _] y; apply (toS_toI d r); assumption).
  all: try (intros v [Hv _] x; apply (toI_toS d r); assumption).
  all: try (intros; unfold toS; rewrite on_simplices_lin; reflexivity).
  all: try (intros; rewrite toI_lin; reflexivity).
  all: try (intros v v' E y; unfold toS; apply on_simplices_cong; auto).
  all: try (intros w w' E x; unfold toI; apply E).
Qed.

Lemma dim_cycle_bounds d r s N : r <= s < max_r ->
  has_dim p (fun v => cycle_at p Ds R d r v /\ bounds_at p Ds R d s v) N <->
  has_dim p (fun v => s_cycle p n (K r) d v /\ s_bounds p n (K s) d v) N.
Proof.
  intros Hrs. assert (Hr : r < max_r) by lia. assert (Hs : s < max_r) by lia.
  assert (A : forall v, cycle_at p Ds R d r v /\ bounds_at p Ds R d s v ->
     s_cycle p n (K r) d (toS d v) /\ s_bounds p n (K s) d (toS d v)).
  { intros v [H1 H2]. split; [apply cycle_to|apply bounds_to]; auto. }
  assert (B : forall w, s_cycle p n (K r) d w /\ s_bounds p n (K s) d w ->
     cycle_at p Ds R d r (toI d w) /\ bounds_at p Ds R d s (toI d w)).
  { intros w [Hw Hb]. pose proof Hw as [Hch _].
    assert (Hz : forall i, (length (L d) <= i)%nat -> toI d w i mod p = 0).
    { intros i Hi. apply (chain_small d r); auto. apply toI_chain; auto. }
    assert (E : forall t, cong p (w t) (toS d (toI d w) t)) by (intros t; symmetry; apply (toS_toI d r); auto).
    split; [apply cycle_from|apply bounds_from]; auto.
    - eapply s_cycle_cong; eauto.
    - eapply s_bounds_cong; eauto. }
  split; [apply (has_dim_map _ _ (toS d) (toI d))|apply (has_dim_map _ _ (toI d) (toS d))]; auto.
  all: try (intros w [[Hw _] _] y; apply (toS_toI d r); assumption).
  all: try (intros v [[Hv _] _] x; apply (toI_toS d r); assumption).
  all: try (intros; unfold toS; rewrite on_simplices_lin; reflexivity).
  all: try (intros; rewrite toI_lin; reflexivity).
  all: try (intros v v' E y; unfold toS; apply on_simplices_cong; auto).
  all: try (intros w w' E x; unfold toI; apply E).
Qed.
End Chains.
