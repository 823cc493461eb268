(** * Proofs of C26 and C27 *)
From Verif Require Import Base ListX SortX Lin Basis_model PH_model PH_lin PH_props Simp_model Spec_Simp Simp_lists Simp_diff Simp_props
  Spec_PH Spec_Rips Rips_bd Rips_chain.
From Coq Require Import Sorted Permutation Znumtheory.
Local Open Scope Z_scope.

(** Insertion sort of a rearranged list of indices, for examples. *)
Definition argsort_by (f : list nat -> list nat) (l : list Z) : list nat :=
  isort (fun i j => nth i l 0 <=? nth j l 0) (f (seq 0 (length l))).

Lemma argsort_by_sorts f : (forall l, Permutation l (f l)) -> sorts (argsort_by f).
Proof.
  intros Hf l. unfold argsort_by. split; [rewrite <- isort_perm; symmetry; apply Hf|].
  intros i j Hij. set (leb := fun i j => nth i l 0 <=? nth j l 0).
  assert (H : StronglySorted (fun i j => nth i l 0 <= nth j l 0) (isort leb (f (seq 0 (length l))))).
  { apply (isort_sorted leb (fun _ _ => True)).
    - intros x y _ H. unfold leb in H. apply Z.leb_le in H. auto.
    - intros x y _ H. unfold leb in H. apply Z.leb_gt in H. lia.
    - intros; lia.
    - generalize (f (seq 0 (length l))). intros q. induction q; constructor; auto. apply Forall_forall. auto. }
  apply (sorted_nth _ _ 0%nat H). rewrite isort_length, <- (Permutation_length (Hf _)), seq_length. auto.
Qed.

(** ** Counting bars determines the multiset of bars *)
Definition bar_dec (x y : Z * Z) : {x = y} + {x <> y}.
Proof. decide equality; apply Z.eq_dec. Defined.

Lemma spans_pair r s x y : spans r s (x, y) = (x <=? r) && (s <? y).
Proof. reflexivity. Qed.

Lemma count_ie bars b e :
  (count_occ bar_dec bars (b, e) + count_bars (spans (b - 1) (e - 1)) bars + count_bars (spans b e) bars =
   count_bars (spans b (e - 1)) bars + count_bars (spans (b - 1) e) bars)%nat.
Proof.
  unfold count_bars. induction bars as [|[x y] l IH]; [reflexivity|]. cbn [filter count_occ].
  destruct (bar_dec (x, y) (b, e)) as [E|Hn].
  - injection E as -> ->. rewrite !spans_pair.
    replace (b <=? b - 1) with false by (symmetry; apply Z.leb_gt; lia).
    replace (b <=? b) with true by (symmetry; apply Z.leb_le; lia).
    replace (e <? e) with false by (symmetry; apply Z.ltb_ge; lia).
    replace (e - 1 <? e) with true by (symmetry; apply Z.ltb_lt; lia). simpl. lia.
  - assert (H : x <> b \/ y <> e) by (destruct (Z.eq_dec x b), (Z.eq_dec y e); subst; auto).
    rewrite !spans_pair.
    destruct (Z.leb_spec x (b - 1)), (Z.leb_spec x b), (Z.ltb_spec (e - 1) y), (Z.ltb_spec e y); try lia; simpl; lia.
Qed.

Lemma count_zero f bars : (forall x, In x bars -> f x = false) -> count_bars f bars = 0%nat.
Proof.
  unfold count_bars. induction bars as [|x l IH]; intros H; [reflexivity|]. cbn [filter].
  rewrite (H x) by (simpl; auto). apply IH. intros y Hy. apply H. simpl. auto.
Qed.

Lemma bars_perm M b1 b2 :
  (forall x, In x b1 -> fst x < snd x <= M) -> (forall x, In x b2 -> fst x < snd x <= M) ->
  (forall r s, r <= s < M -> count_bars (spans r s) b1 = count_bars (spans r s) b2) ->
  Permutation b1 b2.
Proof.
  intros H1 H2 H. apply (Permutation_count_occ bar_dec). intros [b e].
  assert (Hall : forall r s, r <= s -> count_bars (spans r s) b1 = count_bars (spans r s) b2).
  { intros r s Hrs. destruct (Z_lt_ge_dec s M) as [Hs|Hs]; [apply H; lia|].
    rewrite !count_zero; auto; intros x Hx; [apply H2 in Hx|apply H1 in Hx]; unfold spans;
      apply Bool.andb_false_iff; right; apply Z.ltb_ge; lia. }
  destruct (Z_lt_ge_dec b e) as [Hlt|Hge].
  - pose proof (count_ie b1 b e) as E1. pose proof (count_ie b2 b e) as E2.
    rewrite !Hall in E1 by lia. lia.
  - assert (Hn : forall l, (forall x, In x l -> fst x < snd x <= M) -> count_occ bar_dec l (b, e) = 0%nat).
    { intros l Hl. apply count_occ_not_In. intros Hin. apply Hl in Hin. simpl in Hin. lia. }
    rewrite !Hn; auto.
Qed.

Section Final.
Variable argsort : list Z -> list nat.
Hypothesis Hsort : sorts argsort.
Variable rnd : Z -> Z.
Variable Dist : list (list Z).
Hypothesis Hsq : square Dist.
Hypothesis Hnn : forall u v, (u < v < length Dist)%nat -> 0 <= dist Dist u v.
Variables max_r max_dim p : Z.
Hypothesis Hmax : 0 < max_r.
Hypothesis Hp : prime p.
Let n := length Dist.
Let m := Z.to_nat (Z.max 1 max_dim).

Lemma Hp1 : 1 < p.
Proof. destruct Hp. lia. Qed.

Lemma local_total : exists R Cs Ds out, local_homology argsort rnd Dist max_r max_dim p = Ok (Cs, Ds, out) /\
  vietoris_rips argsort Dist max_r max_dim = Ok (n, Cs, R) /\ complex_differentials n Cs p = Ok (n, Ds) /\
  persistent_homology rnd n Ds R max_r p = Ok out /\ length Cs = m.
Proof.
  destruct (C13_aux argsort Hsort Dist Hsq max_r max_dim) as (Cs & R & E & Hl & _).
  assert (Hne : Cs <> []) by (intros ->; simpl in Hl; lia).
  assert (Hsimp : simplicial n Cs) by (apply (vr_simplicial argsort Hsort Dist Hsq max_r max_dim Cs R n E)).
  destruct (differentials_ok n Cs p Hp1 Hne) as (Ds & E' & _); [apply Hsimp|].
  assert (VC : valid_complex p max_r n Ds R) by (eapply rips_valid; eauto using Hp1).
  destruct (C23_total_aux rnd p max_r n Ds R Hp VC) as (out & E'').
  exists R, Cs, Ds, out. repeat split; auto. unfold local_homology. rewrite E. cbn. fold n. rewrite E'. cbn. rewrite E''. reflexivity.
Qed.

Lemma local_inv Cs Ds out : local_homology argsort rnd Dist max_r max_dim p = Ok (Cs, Ds, out) ->
  exists R, vietoris_rips argsort Dist max_r max_dim = Ok (n, Cs, R) /\ complex_differentials n Cs p = Ok (n, Ds) /\
  persistent_homology rnd n Ds R max_r p = Ok out /\ length Cs = m /\ length Ds = m /\ valid_complex p max_r n Ds R.
Proof.
  intros E. destruct local_total as (R & Cs' & Ds' & out' & E' & H1 & H2 & H3 & H4).
  rewrite E in E'. injection E' as <- <- <-. exists R. do 4 (split; auto). split; [|eapply rips_valid; eauto using Hp1].
  rewrite <- H4. apply (diff_facts argsort Hsort Dist Hsq Hnn max_r max_dim p Hp1 Cs R Ds H1 H2).
Qed.

Lemma local_basis Cs Ds out : local_homology argsort rnd Dist max_r max_dim p = Ok (Cs, Ds, out) ->
  forall d r, (d <= m)%nat -> r < max_r ->
  let h := nth d (ph_hom out) empty_basis in
  quotient_basis p (s_cycle p n (fun d => rips_upto m Dist d r) d) (s_bounds p n (fun d => rips_upto m Dist d r) d)
    (length (b_bars h)) (fun k => on_simplices (level n Cs d) (colv (b_coords h) k))
    (fun k => bbirth (b_bars h) k <= r < bdeath (b_bars h) k).
Proof.
  intros E d r Hd Hr h. destruct (local_inv Cs Ds out E) as (R & H1 & H2 & H3 & H4 & H5 & VC).
  rewrite <- H4 in Hd |- *.
  assert (Hcoord : forall k i, (length (level n Cs d) <= i)%nat -> colv (b_coords h) k i = 0).
  { intros k i Hi. destruct (C23_aux rnd p max_r n Ds R out Hp VC H3) as (_ & _ & _ & H).
    destruct (H d) as (_ & _ & _ & Hc & _ & _ & Hl & _); [rewrite H5, <- H4; auto|]. fold h in Hc, Hl.
    unfold colv, get, vget. destruct (lt_dec k (length (b_bars h))) as [Hk|Hk].
    - destruct (Hl k Hk) as [Hl' _]. apply nth_overflow.
      rewrite (csize_L argsort Hsort Dist Hsq Hnn max_r max_dim Cs R H1) in Hl'. unfold vec in *. fold n in Hl'. lia.
    - unfold col. rewrite (nth_overflow (cols (b_coords h))) by (unfold ncols, vec in *; lia). destruct i; reflexivity. }
  apply (basis_transport argsort Hsort Dist Hsq Hnn max_r max_dim p Hp1 Cs R Ds H1 H2 d r); auto.
  apply (C20_aux rnd p max_r n Ds R out Hp VC H3); auto. rewrite H5, <- H4. auto.
Qed.

Lemma local_counts Cs Ds out : local_homology argsort rnd Dist max_r max_dim p = Ok (Cs, Ds, out) ->
  forall d r s, (d <= m)%nat -> r <= s < max_r ->
  (exists z b, has_dim p (s_cycle p n (fun d => rips_upto m Dist d r) d) z /\
     has_dim p (fun c => s_cycle p n (fun d => rips_upto m Dist d r) d c /\
                         s_bounds p n (fun d => rips_upto m Dist d s) d c) b) /\
  forall z b, has_dim p (s_cycle p n (fun d => rips_upto m Dist d r) d) z ->
     has_dim p (fun c => s_cycle p n (fun d => rips_upto m Dist d r) d c /\
                         s_bounds p n (fun d => rips_upto m Dist d s) d c) b ->
  (count_bars (spans r s) (b_bars (nth d (ph_hom out) empty_basis)) + b = z)%nat.
Proof.
  intros E d r s Hd Hrs. destruct (local_inv Cs Ds out E) as (R & H1 & H2 & H3 & H4 & H5 & VC).
  rewrite <- H5 in Hd. destruct (C50_aux rnd p max_r n Ds R out Hp VC H3 d r s Hd Hrs) as [(z & b & Hz & Hb) HC].
  rewrite <- H4.
  pose proof (dim_cycles argsort Hsort Dist Hsq Hnn max_r max_dim p Hp1 Cs R Ds H1 H2) as T1.
  pose proof (dim_cycle_bounds argsort Hsort Dist Hsq Hnn max_r max_dim p Hp1 Cs R Ds H1 H2) as T2.
  split.
  - exists z, b. split; [apply T1; auto; lia|apply T2; auto].
  - intros z' b' Hz' Hb'. apply HC; [apply T1 in Hz'; auto; lia|apply T2 in Hb'; auto].
Qed.

Lemma local_bars Cs Ds out : local_homology argsort rnd Dist max_r max_dim p = Ok (Cs, Ds, out) ->
  forall d, (d <= m)%nat -> forall x, In x (b_bars (nth d (ph_hom out) empty_basis)) -> fst x < snd x <= max_r.
Proof.
  intros E d Hd x Hx. destruct (local_inv Cs Ds out E) as (R & H1 & H2 & H3 & H4 & H5 & VC).
  destruct (C23_aux rnd p max_r n Ds R out Hp VC H3) as (_ & _ & _ & H).
  destruct (H d) as (Hb & _); [lia|]. destruct (In_nth _ _ (0, 0) Hx) as (k & Hk & <-). apply Hb. auto.
Qed.
End Final.

Lemma quotient_basis_iff {X} p (Z1 Z2 B1 B2 : (X -> Z) -> Prop) N g alive :
  (forall v, Z1 v <-> Z2 v) -> (forall v, B1 v <-> B2 v) -> quotient_basis p Z1 B1 N g alive -> quotient_basis p Z2 B2 N g alive.
Proof.
  intros HZ HB (H1 & H2 & H3). split; [|split].
  - intros k Hk Ha. apply HZ; auto.
  - intros v Hv. apply HZ in Hv. destruct (H2 v Hv) as (c & Hc & Hb). exists c. split; auto. apply HB. auto.
  - intros c Hc Hb. apply HB in Hb. auto.
Qed.

Lemma has_dim_iff {X} p (Z1 Z2 : (X -> Z) -> Prop) N : (forall v, Z1 v <-> Z2 v) -> has_dim p Z1 N -> has_dim p Z2 N.
Proof.
  intros HZ (b & H1 & H2 & H3). exists b. split; [|split]; auto.
  - intros k Hk. apply HZ; auto.
  - intros v Hv. apply HZ in Hv. auto.
Qed.

Lemma cycle_upto p n m Dist r d c : (d <= m)%nat ->
  s_cycle p n (fun d => rips_upto m Dist d r) d c <-> s_cycle p n (fun d => rips Dist d r) d c.
Proof.
  intros Hd. unfold s_cycle, s_chain, rips_upto. split; intros [H1 H2]; split; auto; intros s Hs; specialize (H1 s Hs); tauto.
Qed.

Lemma bounds_upto p n m Dist r d c : (d < m)%nat ->
  s_bounds p n (fun d => rips_upto m Dist d r) d c <-> s_bounds p n (fun d => rips Dist d r) d c.
Proof.
  intros Hd. unfold s_bounds, s_chain, rips_upto. split; intros [H1 (w & H2 & H3)]; (split; [|exists w; split; auto]).
  - intros s Hs. apply H1. auto.
  - intros s Hs. apply H2. auto.
  - intros s Hs. split; auto. lia.
Qed.

Lemma C26_total_aux : forall argsort, sorts argsort -> forall rnd Dist max_r max_dim p,
  square Dist -> (forall u v, (u < v < length Dist)%nat -> 0 <= dist Dist u v) -> 0 < max_r -> prime p ->
  exists Cs Ds out, local_homology argsort rnd Dist max_r max_dim p = Ok (Cs, Ds, out).
Proof.
  intros argsort Hs rnd Dist max_r max_dim p Hsq Hnn Hm Hp.
  destruct (local_total argsort Hs rnd Dist Hsq Hnn max_r max_dim p Hm Hp) as (R & Cs & Ds & out & E & _). eauto.
Qed.

Lemma C26_aux : forall argsort, sorts argsort -> forall rnd Dist max_r max_dim p,
  square Dist -> (forall u v, (u < v < length Dist)%nat -> 0 <= dist Dist u v) -> 0 < max_r -> prime p ->
  forall Cs Ds out, local_homology argsort rnd Dist max_r max_dim p = Ok (Cs, Ds, out) ->
  forall d r, (d < Z.to_nat (Z.max 1 max_dim))%nat -> r < max_r ->
  let n := length Dist in let h := nth d (ph_hom out) empty_basis in
  quotient_basis p (s_cycle p n (fun d => rips Dist d r) d) (s_bounds p n (fun d => rips Dist d r) d)
    (length (b_bars h)) (fun k => on_simplices (level n Cs d) (colv (b_coords h) k))
    (fun k => bbirth (b_bars h) k <= r < bdeath (b_bars h) k).
Proof.
  intros argsort Hs rnd Dist max_r max_dim p Hsq Hnn Hm Hp Cs Ds out E d r Hd Hr n h.
  eapply quotient_basis_iff; [| |eapply local_basis; eauto; lia].
  - intros v. apply cycle_upto. lia.
  - intros v. apply bounds_upto. auto.
Qed.

Lemma C26_top_aux : forall argsort, sorts argsort -> forall rnd Dist max_r max_dim p,
  square Dist -> (forall u v, (u < v < length Dist)%nat -> 0 <= dist Dist u v) -> 0 < max_r -> prime p ->
  forall Cs Ds out, local_homology argsort rnd Dist max_r max_dim p = Ok (Cs, Ds, out) ->
  forall d r, (d <= Z.to_nat (Z.max 1 max_dim))%nat -> r < max_r ->
  let n := length Dist in let h := nth d (ph_hom out) empty_basis in
  let K d := rips_upto (Z.to_nat (Z.max 1 max_dim)) Dist d r in
  quotient_basis p (s_cycle p n K d) (s_bounds p n K d)
    (length (b_bars h)) (fun k => on_simplices (level n Cs d) (colv (b_coords h) k))
    (fun k => bbirth (b_bars h) k <= r < bdeath (b_bars h) k).
Proof.
  intros argsort Hs rnd Dist max_r max_dim p Hsq Hnn Hm Hp Cs Ds out E d r Hd Hr n h K.
  eapply local_basis; eauto.
Qed.

Lemma C26_betti_aux : forall argsort, sorts argsort -> forall rnd Dist max_r max_dim p,
  square Dist -> (forall u v, (u < v < length Dist)%nat -> 0 <= dist Dist u v) -> 0 < max_r -> prime p ->
  forall Cs Ds out, local_homology argsort rnd Dist max_r max_dim p = Ok (Cs, Ds, out) ->
  forall d r s, (d < Z.to_nat (Z.max 1 max_dim))%nat -> r <= s < max_r ->
  let n := length Dist in let Zr := s_cycle p n (fun d => rips Dist d r) d in let Bs := s_bounds p n (fun d => rips Dist d s) d in
  (exists z b, has_dim p Zr z /\ has_dim p (fun c => Zr c /\ Bs c) b) /\
  forall z b, has_dim p Zr z -> has_dim p (fun c => Zr c /\ Bs c) b ->
    (count_bars (spans r s) (b_bars (nth d (ph_hom out) empty_basis)) + b = z)%nat.
Proof.
  intros argsort Hs rnd Dist max_r max_dim p Hsq Hnn Hm Hp Cs Ds out E d r s Hd Hr n Zr Bs.
  destruct (local_counts argsort Hs rnd Dist Hsq Hnn max_r max_dim p Hm Hp Cs Ds out E d r s ltac:(lia) Hr) as [(z & b & Hz & Hb) H].
  fold n in Hz, Hb, H. split.
  - exists z, b. split; [eapply has_dim_iff; [|exact Hz]|eapply has_dim_iff; [|exact Hb]]; intros v; cbn beta.
    + apply cycle_upto. lia.
    + unfold Zr, Bs. rewrite cycle_upto, bounds_upto by lia. reflexivity.
  - intros z' b' Hz' Hb'. apply H; [eapply has_dim_iff; [|exact Hz']|eapply has_dim_iff; [|exact Hb']]; intros v; cbn beta.
    + symmetry. apply cycle_upto. lia.
    + unfold Zr, Bs. rewrite cycle_upto, bounds_upto by lia. reflexivity.
Qed.

Lemma C27_aux : forall argsort1 argsort2, sorts argsort1 -> sorts argsort2 ->
  forall rnd1 rnd2 Dist max_r max_dim p,
  square Dist -> (forall u v, (u < v < length Dist)%nat -> 0 <= dist Dist u v) -> 0 < max_r -> prime p ->
  forall Cs1 Ds1 out1 Cs2 Ds2 out2,
  local_homology argsort1 rnd1 Dist max_r max_dim p = Ok (Cs1, Ds1, out1) ->
  local_homology argsort2 rnd2 Dist max_r max_dim p = Ok (Cs2, Ds2, out2) ->
  forall d, (d <= Z.to_nat (Z.max 1 max_dim))%nat ->
  Permutation (b_bars (nth d (ph_hom out1) empty_basis)) (b_bars (nth d (ph_hom out2) empty_basis)).
Proof.
  intros a1 a2 Hs1 Hs2 rnd1 rnd2 Dist max_r max_dim p Hsq Hnn Hm Hp Cs1 Ds1 out1 Cs2 Ds2 out2 E1 E2 d Hd.
  apply (bars_perm max_r).
  - eapply (local_bars a1); eauto.
  - eapply (local_bars a2); eauto.
  - intros r s Hrs.
    destruct (local_counts a1 Hs1 rnd1 Dist Hsq Hnn max_r max_dim p Hm Hp Cs1 Ds1 out1 E1 d r s Hd Hrs) as [(z & b & Hz & Hb) H1].
    destruct (local_counts a2 Hs2 rnd2 Dist Hsq Hnn max_r max_dim p Hm Hp Cs2 Ds2 out2 E2 d r s Hd Hrs) as [_ H2].
    specialize (H1 z b Hz Hb). specialize (H2 z b Hz Hb). lia.
Qed.
