(** * Proofs of C19-C25: correctness of persistent homology *)
From Verif Require Import Base ListX SortX Lin Gauss_model Gauss_arith Gauss_col Gauss_solve Basis_model Basis_props PH_model
  PH_core Spec_PH Spec_Basis PH_step PH_lin PH_loop.
From Coq Require Import Znumtheory Sorting.Permutation Sorting.Sorted.
Local Open Scope Z_scope.

Section Facts.
Variables (p max_rad : Z) (n0 : nat) (Ds : list mat) (Rs : list (list Z)).
Hypothesis Hp : prime p.
Hypothesis VC : valid_complex p max_rad n0 Ds Rs.
Variables (d : nat) (ims : list imgen) (gens : list gen).
Hypothesis HO : hom_ok p max_rad Ds Rs d ims gens.
Hypothesis IO : im_ok p max_rad Ds Rs d ims.

Local Notation gp g := (npiv (snd g)).
Local Notation ip h := (npiv (gvec h)).

Lemma gen_piv g : In g gens -> is_piv p (vget (snd g)) (gp g) /\ (gp g < csize Rs d)%nat.
Proof.
  intros Hg. split.
  - apply npiv_piv; [apply (ho_rng _ _ _ _ _ _ _ HO)|apply (ho_nz _ _ _ _ _ _ _ HO)]; auto.
  - rewrite <- (ho_len _ _ _ _ _ _ _ HO g Hg). apply npiv_lt. apply (ho_nz _ _ _ _ _ _ _ HO); auto.
Qed.

Lemma gen_cycle g r : In g gens -> fst (fst g) <= r -> cycle_at p Ds Rs d r (vget (snd g)).
Proof.
  intros Hg Hr. apply (cycle_iff p Ds Rs Hp). split; [|apply (ho_cycle _ _ _ _ _ _ _ HO); auto].
  destruct (gen_piv g Hg) as [Hpv Hlt].
  apply (piv_chain p max_rad n0 Ds Rs Hp VC d r _ (gp g)); auto.
  rewrite (ho_birth _ _ _ _ _ _ _ HO g Hg). auto.
Qed.

Lemma gen_last g : In g gens -> exists i, (i < csize Rs d)%nat /\ crad Rs d i = fst (fst g) /\
  vget (snd g) i mod p <> 0 /\ forall j, (i < j)%nat -> vget (snd g) j mod p = 0.
Proof.
  intros Hg. destruct (gen_piv g Hg) as [[H1 H2] Hlt]. exists (gp g). split; auto.
  split; [apply (ho_birth _ _ _ _ _ _ _ HO); auto|]. split.
  - intros E. apply H1. apply (mod_cong0 p Hp). auto.
  - intros j Hj. apply (mod_cong0 p Hp). auto.
Qed.

Lemma im_bounds h r : In h ims -> gdeath h <= r -> bounds_at p Ds Rs d r (vget (gvec h)).
Proof. intros Hh Hr. apply (io_bounds _ _ _ _ _ _ IO r). apply span_in. exists h. auto. Qed.

(** Boundaries at [r] as the span of a list. *)
Definition ims_at (r : Z) : list imgen := filter (fun h => gdeath h <=? r) ims.
Lemma bounds_list r v : bounds_at p Ds Rs d r v <-> lspan p (fun h => vget (gvec h)) (ims_at r) v.
Proof.
  rewrite (io_bounds _ _ _ _ _ _ IO r v). split; apply span_mono.
  - intros u (h & Hh & Hr & ->). exists h. split; auto. apply filter_In. split; auto. lia.
  - intros u (h & Hh & ->). apply filter_In in Hh. exists h. split; [tauto|]. split; [lia|auto].
Qed.

Lemma bounds_piv r v i : bounds_at p Ds Rs d r v -> is_piv p v i -> exists h, In h ims /\ gdeath h <= r /\ ip h = i.
Proof.
  intros Hb Hi. apply bounds_list in Hb.
  destruct (lspan_piv p Hp (fun h => vget (gvec h)) (fun h => ip h) (ims_at r)) with (v := v) (i := i) as (h & Hh & E); auto.
  - intros h Hh. apply filter_In in Hh. apply (im_piv p max_rad Ds Rs d ims h IO). tauto.
  - apply NoDup_map_filter. apply (io_nodup _ _ _ _ _ _ IO).
  - apply filter_In in Hh. exists h. split; [tauto|]. split; [lia|auto].
Qed.

Lemma bounds_cycle r v : r < max_rad -> bounds_at p Ds Rs d r v -> cycle_at p Ds Rs d r v.
Proof.
  intros Hr Hb. rewrite (io_bounds _ _ _ _ _ _ IO r v) in Hb.
  apply (span_ind_closed p (im_set ims r)); auto.
  - intros u Hu. apply (cycle_iff p Ds Rs Hp). split.
    + intros i Hi. elim Hi. apply (mod_cong0 p Hp). rewrite (Hu i). reflexivity.
    + intros i. rewrite (bd_of_cong p Ds Rs d u _ Hu i). unfold bd_of, fzero. rewrite Zsum_0; [reflexivity|intros; ring].
  - intros u w z a. apply (cycle_closed p Ds Rs Hp).
  - intros u (h & Hh & Hl & ->). apply (cycle_iff p Ds Rs Hp). split; [|apply (im_cycle p max_rad n0 Ds Rs Hp VC d ims h IO Hh)].
    destruct (im_piv p max_rad Ds Rs d ims h IO Hh) as [H1 H2].
    apply (piv_chain p max_rad n0 Ds Rs Hp VC d r _ (ip h)); auto.
    pose proof (io_bar _ _ _ _ _ _ IO h Hh). lia.
Qed.

(** No combination of alive generators bounds. *)
Definition alive_b (r : Z) (b : Z * Z) : bool := (fst b <=? r) && (r <? snd b).
Definition gens_at (r : Z) : list gen := filter (fun g => alive_b r (fst g)) gens.

Lemma gens_at_In g r : In g (gens_at r) <-> In g gens /\ fst (fst g) <= r < snd (fst g).
Proof. unfold gens_at, alive_b. rewrite filter_In. intuition lia. Qed.

Lemma alive_not_bounds r v : r < max_rad -> lspan p (fun g : gen => vget (snd g)) (gens_at r) v -> bounds_at p Ds Rs d r v ->
  forall i, ~ is_piv p v i.
Proof.
  intros Hr Hs Hb i Hi.
  destruct (bounds_piv r v i Hb Hi) as (h & Hh & Hl & Eh).
  destruct (lspan_piv p Hp (fun g : gen => vget (snd g)) (fun g : gen => gp g) (gens_at r)) with (v := v) (i := i) as (g & Hg & Eg); auto.
  - intros g Hg. apply gens_at_In in Hg. apply gen_piv. tauto.
  - apply NoDup_map_filter. apply (ho_nodup _ _ _ _ _ _ _ HO).
  - apply gens_at_In in Hg. pose proof (ho_disj _ _ _ _ _ _ _ HO g h (proj1 Hg) Hh ltac:(congruence)). lia.
Qed.

(** Cycles as the span of alive generators and boundaries. *)
Lemma cycles_list r v : r < max_rad ->
  cycle_at p Ds Rs d r v <->
  lspan p (fun x : gen + imgen => match x with inl g => vget (snd g) | inr h => vget (gvec h) end)
          (map inl (gens_at r) ++ map inr (ims_at r)) v.
Proof.
  intros Hr. split.
  - intros Hv. pose proof (ho_span _ _ _ _ _ _ _ HO r v Hr Hv) as Hs. revert Hs. apply span_mono.
    intros u [(g & Hg & Ha & ->)|(h & Hh & Hl & ->)].
    + exists (inl g). split; auto. apply in_app_iff. left. apply in_map. apply gens_at_In. auto.
    + exists (inr h). split; auto. apply in_app_iff. right. apply in_map. apply filter_In. split; auto. lia.
  - intros Hs. eapply (span_ind_closed p); [| | |exact Hs].
    + intros u Hu. apply (bounds_cycle r); auto. apply (io_bounds _ _ _ _ _ _ IO). apply span_0. auto.
    + intros u w z a. apply (cycle_closed p Ds Rs Hp).
    + intros u (x & Hx & ->). apply in_app_iff in Hx. destruct Hx as [Hx|Hx]; apply in_map_iff in Hx.
      * destruct Hx as (g & <- & Hg). apply gens_at_In in Hg. apply gen_cycle; tauto.
      * destruct Hx as (h & <- & Hh). apply filter_In in Hh. apply bounds_cycle; auto. apply im_bounds; [tauto|lia].
Qed.

Local Notation cvec := (fun x : gen + imgen => match x with inl g => vget (snd g) | inr h => vget (gvec h) end).
Local Notation cpiv := (fun x : gen + imgen => match x with inl g => gp g | inr h => ip h end).
Local Notation clist r := (map (@inl gen imgen) (gens_at r) ++ map (@inr gen imgen) (ims_at r)).

Lemma clist_piv r x : In x (clist r) -> is_piv p (cvec x) (cpiv x).
Proof.
  intros Hx. apply in_app_iff in Hx. destruct Hx as [Hx|Hx]; apply in_map_iff in Hx.
  - destruct Hx as (g & <- & Hg). apply gens_at_In in Hg. apply gen_piv; tauto.
  - destruct Hx as (h & <- & Hh). apply filter_In in Hh. apply (im_piv p max_rad Ds Rs d ims h IO). tauto.
Qed.

Lemma clist_nodup r : NoDup (map cpiv (clist r)).
Proof.
  rewrite map_app, !map_map. apply NoDup_app_intro.
  - apply NoDup_map_filter. apply (ho_nodup _ _ _ _ _ _ _ HO).
  - apply NoDup_map_filter. apply (io_nodup _ _ _ _ _ _ IO).
  - intros x Hx Hy. apply in_map_iff in Hx, Hy. destruct Hx as (g & <- & Hg). destruct Hy as (h & E & Hh).
    apply gens_at_In in Hg. apply filter_In in Hh.
    pose proof (ho_disj _ _ _ _ _ _ _ HO g h (proj1 Hg) (proj1 Hh) ltac:(congruence)). lia.
Qed.

Lemma cycles_dim r : r < max_rad -> has_dim p (cycle_at p Ds Rs d r) (length (gens_at r) + length (ims_at r)).
Proof.
  intros Hr. replace (length (gens_at r) + length (ims_at r))%nat with (length (clist r))
    by (rewrite app_length, !map_length; auto).
  apply (dim_of_list p Hp cvec cpiv).
  - apply clist_piv.
  - apply clist_nodup.
  - intros v. apply cycles_list; auto.
Qed.

(** Boundaries at [s] that are chains at [r]. *)
Definition ims_rs (r s : Z) : list imgen := filter (fun h => (crad Rs d (ip h) <=? r) && (gdeath h <=? s)) ims.

Lemma ims_rs_In h r s : In h (ims_rs r s) <-> In h ims /\ crad Rs d (ip h) <= r /\ gdeath h <= s.
Proof. unfold ims_rs. rewrite filter_In. intuition lia. Qed.

Lemma bounds_rs_dim r s : has_dim p (fun v => chain_at p Rs d r v /\ bounds_at p Ds Rs d s v) (length (ims_rs r s)).
Proof.
  apply (dim_of_list p Hp (fun h : imgen => vget (gvec h)) (fun h => ip h)).
  - intros h Hh. apply ims_rs_In in Hh. apply (im_piv p max_rad Ds Rs d ims h IO). tauto.
  - apply NoDup_map_filter. apply (io_nodup _ _ _ _ _ _ IO).
  - intros v. split.
    + intros [Hc Hb]. destruct (prefix_of p max_rad n0 Ds Rs VC d r) as (m & Hm & Hpre).
      apply (span_by_pivots p Hp (fun v => chain_at p Rs d r v /\ bounds_at p Ds Rs d s v) _ m); auto.
      * intros u w a z [Hu1 Hu2] [Hw1 Hw2] E. split.
        -- rewrite (chain_iff p Rs Hp) in *. intros i Hi. rewrite (E i). unfold fadd, fscale. rewrite (Hu1 i Hi), (Hw1 i Hi).
           apply cong_eq; ring.
        -- rewrite (io_bounds _ _ _ _ _ _ IO s) in *. eapply span_veq; [symmetry; exact E|].
           apply span_add; auto. apply span_scale; auto.
      * intros u (h & Hh & ->). apply ims_rs_In in Hh. destruct (im_piv p max_rad Ds Rs d ims h IO (proj1 Hh)) as [H1 H2]. split.
        -- apply (piv_chain p max_rad n0 Ds Rs Hp VC d r _ (ip h)); tauto.
        -- apply im_bounds; tauto.
      * intros z i Hi [_ Hz] Hzp. destruct (bounds_piv s z i Hz Hzp) as (h & Hh & Hl & Eh).
        exists (vget (gvec h)). split.
        -- exists h. split; auto. apply ims_rs_In. split; auto. split; auto. rewrite Eh. apply Hpre. auto.
        -- rewrite <- Eh. apply (im_piv p max_rad Ds Rs d ims h IO Hh).
      * intros i Hi. rewrite (chain_iff p Rs Hp) in Hc. apply Hc. rewrite Hpre. lia.
    + intros Hs. split.
      * apply (chain_iff p Rs Hp). intros i Hi. unfold lspan in Hs. induction Hs as [v H|u v w a Hu Hv IH H].
        -- apply (H i).
        -- rewrite (H i). unfold fadd, fscale. rewrite IH. destruct Hu as (h & Hh & ->). apply ims_rs_In in Hh.
           destruct (im_piv p max_rad Ds Rs d ims h IO (proj1 Hh)) as [H1 H2].
           assert (C : chain_at p Rs d r (vget (gvec h)))
             by (apply (piv_chain p max_rad n0 Ds Rs Hp VC d r _ (ip h)); tauto).
           rewrite (chain_iff p Rs Hp) in C. rewrite (C i Hi). apply cong_eq; ring.
      * apply (io_bounds _ _ _ _ _ _ IO s). revert Hs. apply span_mono. intros u (h & Hh & ->). apply ims_rs_In in Hh.
        exists h. tauto.
Qed.

Lemma bounds_dim r : has_dim p (bounds_at p Ds Rs d r) (length (ims_at r)).
Proof.
  apply (dim_of_list p Hp (fun h : imgen => vget (gvec h)) (fun h => ip h)).
  - intros h Hh. apply filter_In in Hh. apply (im_piv p max_rad Ds Rs d ims h IO). tauto.
  - apply NoDup_map_filter. apply (io_nodup _ _ _ _ _ _ IO).
  - intros v. apply bounds_list.
Qed.

(** Every image generator that is not yet a boundary at [r] is one of the alive generators. *)
Lemma im_gen h r : In h ims -> crad Rs d (ip h) <= r < gdeath h -> exists g, In g gens /\ gp g = ip h /\ snd (fst g) = gdeath h /\
  fst (fst g) = crad Rs d (ip h).
Proof.
  intros Hh Hr. pose proof (io_bar _ _ _ _ _ _ IO h Hh) as Hb.
  destruct (im_piv p max_rad Ds Rs d ims h IO Hh) as [H1 H2].
  assert (Hcy : cycle_at p Ds Rs d r (vget (gvec h))).
  { apply (cycle_iff p Ds Rs Hp). split; [|apply (im_cycle p max_rad n0 Ds Rs Hp VC d ims h IO Hh)].
    apply (piv_chain p max_rad n0 Ds Rs Hp VC d r _ (ip h)); auto. lia. }
  apply cycles_list in Hcy; [|lia].
  destruct (lspan_piv p Hp cvec cpiv (clist r) (clist_piv r) (clist_nodup r) _ (ip h) Hcy H1) as (x & Hx & E).
- apply in_app_iff in Hx. destruct Hx as [Hx|Hx]; apply in_map_iff in Hx.
    + destruct Hx as (g & <- & Hg). apply gens_at_In in Hg. exists g. split; [tauto|]. split; auto.
      split; [apply (ho_disj _ _ _ _ _ _ _ HO); tauto|].
      rewrite <- (ho_birth _ _ _ _ _ _ _ HO g) by tauto. congruence.
    + destruct Hx as (h' & <- & Hh'). apply filter_In in Hh'.
      rewrite (NoDup_map_eq _ _ h' h (io_nodup _ _ _ _ _ _ IO) (proj1 Hh') Hh E) in Hh'. lia.
Qed.

Lemma filter_filter {A} (f g : A -> bool) l : filter f (filter g l) = filter (fun x => g x && f x) l.
Proof. induction l as [|x l IH]; simpl; auto. destruct (g x); simpl; [destruct (f x)|]; rewrite ?IH; auto. Qed.

Lemma count_rs r s : r <= s < max_rad ->
  (length (gens_at r) + length (ims_at r) =
   count_bars (spans r s) (map fst gens) + length (ims_rs r s))%nat.
Proof.
  intros Hrs.
  pose proof (filter_split_length (fun g : gen => s <? snd (fst g)) (gens_at r)) as E1.
  pose proof (filter_split_length (fun h : imgen => gdeath h <=? r) (ims_rs r s)) as E2.
  assert (A1 : filter (fun g : gen => s <? snd (fst g)) (gens_at r) = filter (fun g => (fst (fst g) <=? r) && (s <? snd (fst g))) gens).
  { unfold gens_at. rewrite filter_filter. apply filter_ext. intros g. unfold alive_b. lia. }
  assert (A2 : filter (fun h : imgen => gdeath h <=? r) (ims_rs r s) = ims_at r).
  { unfold ims_rs. rewrite filter_filter. apply filter_ext_in. intros h Hh.
    pose proof (io_bar _ _ _ _ _ _ IO h Hh). lia. }
  assert (A3 : length (filter (fun g : gen => negb (s <? snd (fst g))) (gens_at r)) =
               length (filter (fun h : imgen => negb (gdeath h <=? r)) (ims_rs r s))).
  { rewrite <- (map_length (fun g : gen => gp g)), <- (map_length (fun h : imgen => ip h)).
    apply Permutation_length. apply NoDup_Permutation.
    - apply NoDup_map_filter, NoDup_map_filter. apply (ho_nodup _ _ _ _ _ _ _ HO).
    - apply NoDup_map_filter, NoDup_map_filter. apply (io_nodup _ _ _ _ _ _ IO).
    - intros x. rewrite !in_map_iff. split.
      + intros (g & <- & Hg). apply filter_In in Hg. rewrite gens_at_In in Hg. destruct Hg as [[Hg Ha] Hs].
        destruct (ho_fin _ _ _ _ _ _ _ HO g Hg ltac:(lia)) as (h & Hh & Ev & Ed).
        exists h. split; [congruence|]. apply filter_In. rewrite ims_rs_In. repeat split; auto; try lia.
        rewrite Ev, (ho_birth _ _ _ _ _ _ _ HO g Hg). lia.
      + intros (h & <- & Hh). apply filter_In in Hh. rewrite ims_rs_In in Hh. destruct Hh as [(Hh & Hb & Hd) Hs].
        destruct (im_gen h r Hh ltac:(lia)) as (g & Hg & Eg & Ed & Eb). exists g. split; auto.
        apply filter_In. rewrite gens_at_In. repeat split; auto; lia. }
  assert (A4 : count_bars (spans r s) (map fst gens) =
               length (filter (fun g : gen => (fst (fst g) <=? r) && (s <? snd (fst g))) gens)).
  { unfold count_bars. rewrite filter_map_comm, map_length. reflexivity. }
  rewrite A1 in E1. rewrite A2 in E2. lia.
Qed.
End Facts.

Lemma holds_nth {G} (br : G -> Z * Z) (vc : G -> vec) rnd n b s k : holds br vc rnd n b s ->
  (k < length (b_bars b))%nat -> exists g, In g s /\ nth k s g = g /\ nth k (b_bars b) (0, 0) = br g /\ colv (b_coords b) k = vget (vc g).
Proof.
  intros (H1 & H2 & _) Hk. rewrite H1, map_length in Hk.
  destruct s as [|g0 s']; [cbn in Hk; lia|]. set (s := g0 :: s') in *.
  exists (nth k s g0). split; [apply nth_In; auto|]. split; [apply nth_indep; auto|]. split.
  - rewrite H1. apply nth_map; auto.
  - unfold colv, get, col. rewrite H2. rewrite (nth_map vc s k g0) by auto. reflexivity.
Qed.

Lemma holds_in {G} (br : G -> Z * Z) (vc : G -> vec) rnd n b s g : holds br vc rnd n b s -> In g s ->
  exists k, (k < length (b_bars b))%nat /\ nth k s g = g /\ nth k (b_bars b) (0, 0) = br g /\ colv (b_coords b) k = vget (vc g).
Proof.
  intros (H1 & H2 & _) Hg. apply In_nth with (d := g) in Hg. destruct Hg as (k & Hk & E).
  exists k. rewrite H1, map_length. split; auto. split; auto. split.
  - rewrite (nth_map br s k g) by auto. congruence.
  - unfold colv, get, col. rewrite H2. rewrite (nth_map vc s k g) by auto. rewrite E. reflexivity.
Qed.

Section Final.
Variables (rnd : Z -> Z) (p max_rad : Z) (n0 : nat) (Ds : list mat) (Rs : list (list Z)) (out : ph_out).
Hypothesis Hp : prime p.
Hypothesis VC : valid_complex p max_rad n0 Ds Rs.
Hypothesis Hout : persistent_homology rnd n0 Ds Rs max_rad p = Ok out.
Local Notation hom d := (nth d (ph_hom out) empty_basis).
Local Notation im d := (nth d (ph_im out) empty_basis).

Lemma out_ok d : (d <= length Ds)%nat -> exists ims gens,
     hom_ok p max_rad Ds Rs d ims gens /\ im_ok p max_rad Ds Rs d ims /\
     holds fst snd rnd (csize Rs d) (hom d) gens /\
     holds (fun g => fst (fst g)) gvec rnd (csize Rs d) (im d) ims /\
     ((d < length Ds)%nat -> nth (S d) (ph_preim out) (Mat 0 []) = Mat (csize Rs (S d)) (map snd ims)) /\
     (d = length Ds -> ims = []).
Proof.
  destruct (persistent_homology_ok p max_rad n0 Ds Rs Hp VC rnd) as (out' & E & _ & _ & _ & H).
  rewrite Hout in E. injection E as <-. apply H.
Qed.

Lemma C19_aux d k : (d <= length Ds)%nat -> (k < length (b_bars (hom d)))%nat ->
  cycle_at p Ds Rs d (bbirth (b_bars (hom d)) k) (colv (b_coords (hom d)) k) /\
  exists i, (i < csize Rs d)%nat /\ crad Rs d i = bbirth (b_bars (hom d)) k /\
    colv (b_coords (hom d)) k i mod p <> 0 /\ forall j, (i < j)%nat -> colv (b_coords (hom d)) k j mod p = 0.
Proof.
  intros Hd Hk. destruct (out_ok d Hd) as (ims & gens & HO & IO & Hh & _).
  destruct (holds_nth _ _ _ _ _ _ k Hh Hk) as (g & Hg & _ & Eb & Ec). unfold bbirth. rewrite Eb, Ec. split.
  - apply (gen_cycle p max_rad n0 Ds Rs Hp VC d ims gens HO); auto. lia.
  - apply (gen_last p max_rad Ds Rs Hp d ims gens HO); auto.
Qed.

Lemma C20_aux d r : (d <= length Ds)%nat -> r < max_rad ->
  homology_basis p Ds Rs d r (length (b_bars (hom d))) (colv (b_coords (hom d)))
    (fun k => bbirth (b_bars (hom d)) k <= r < bdeath (b_bars (hom d)) k).
Proof.
  intros Hd Hr. destruct (out_ok d Hd) as (ims & gens & HO & IO & Hh & _).
  set (bars := b_bars (hom d)) in *. set (g := colv (b_coords (hom d))) in *. set (n := length bars).
  set (P := fun k => alive_b r (nth k bars (0, 0))).
  assert (HP : forall k, P k = false <-> ~ (bbirth bars k <= r < bdeath bars k)).
  { intros k. unfold P, alive_b, bbirth, bdeath. lia. }
  assert (Hnth : forall k, (k < n)%nat -> exists x, In x gens /\ nth k gens x = x /\ nth k bars (0, 0) = fst x /\ g k = vget (snd x)).
  { intros k Hk. apply (holds_nth _ _ _ _ _ _ k Hh Hk). }
  assert (Hsp : forall v, span p (fam n P g) v <-> lspan p (fun x : gen => vget (snd x)) (gens_at gens r) v).
  { intros v. split; apply span_mono.
    - intros u (k & Hk & Pk & ->). destruct (Hnth k Hk) as (x & Hx & _ & Eb & Ec). exists x. split; auto.
      apply filter_In. split; auto. unfold P in Pk. rewrite Eb in Pk. auto.
    - intros u (x & Hx & ->). apply filter_In in Hx. destruct (holds_in _ _ _ _ _ _ x Hh (proj1 Hx)) as (k & Hk & _ & Eb & Ec).
      exists k. split; auto. split; auto. unfold P. fold bars in Eb. rewrite Eb. tauto. }
  split; [|split].
  - intros k Hk Ha. destruct (Hnth k Hk) as (x & Hx & _ & Eb & Ec). rewrite Ec.
    apply (gen_cycle p max_rad n0 Ds Rs Hp VC d ims gens HO); auto. unfold bbirth in Ha. rewrite Eb in Ha. lia.
  - intros v Hv. pose proof (ho_span _ _ _ _ _ _ _ HO r v Hr Hv) as Hs.
    apply span_union in Hs. destruct Hs as (a & b & Ha & Hb & E).
    assert (Ha' : span p (fam n P g) a).
    { apply Hsp. revert Ha. apply span_mono. intros u (x & Hx & Hal & ->). exists x. split; auto.
      apply gens_at_In. auto. }
    apply span_lc in Ha'. destruct Ha' as (c & Hc & Ec). exists c. split.
    + intros k Hk. apply Hc. left. apply HP. auto.
    + apply (io_bounds _ _ _ _ _ _ IO r). apply (span_veq p _ b); auto.
      intros i. rewrite (E i). unfold fadd. rewrite (Ec i). unfold lc. apply cong_eq. ring.
  - intros c Hc Hb k Hk. apply (mod_cong0 p Hp).
    change (fun i => Zsum n (fun k => c k * g k i)) with (lc n c g) in Hb.
    destruct (piv_or_zero p (csize Rs d) (lc n c g)) as [Hz|(i & _ & Hi)].
    + intros i Hi. unfold lc. apply Zsum_cong0. intros l Hl. destruct (Hnth l Hl) as (x & Hx & _ & _ & Ec). rewrite Ec.
      unfold vget. rewrite nth_overflow; [apply cong_eq; ring|].
      rewrite (ho_len _ _ _ _ _ _ _ HO x Hx). auto.
    + assert (HC : forall l, (l < n)%nat -> ~ cong p (c l) 0 -> P l = true).
      { intros l Hl Hne. destruct (P l) eqn:Pl; auto. elim Hne. rewrite Hc; [reflexivity|]. apply HP; auto. }
      apply (piv_indep p Hp n g (fun k => nth k (map (fun x : gen => npiv (snd x)) gens) 0%nat) c); auto.
      * intros l Hl _. destruct (Hnth l Hl) as (x & Hx & Ex & _ & Ec). rewrite Ec.
        assert (Hl' : (l < length gens)%nat).
        { destruct Hh as (H1 & _). unfold n, bars in Hl. rewrite H1, map_length in Hl. auto. }
        rewrite (nth_map _ gens l x) by auto. rewrite Ex. apply (gen_piv p max_rad Ds Rs d ims gens HO x Hx).
      * intros l l' Hl Hl' _ _ El. destruct Hh as (H1 & _). unfold n, bars in Hl, Hl'. rewrite H1, map_length in Hl, Hl'.
        apply (proj1 (NoDup_nth (map (fun x : gen => npiv (snd x)) gens) 0%nat) (ho_nodup _ _ _ _ _ _ _ HO));
          rewrite ?map_length; auto.
    + exfalso. apply (alive_not_bounds p max_rad n0 Ds Rs Hp d ims gens HO IO r (lc n c g) Hr) with (i := i); auto.
      apply Hsp. apply lc_in_span. intros l Hl Pl. rewrite Hc; [reflexivity|]. apply HP; auto.
Qed.

Lemma C21_aux d k : (d <= length Ds)%nat -> (k < length (b_bars (hom d)))%nat ->
  let b := bbirth (b_bars (hom d)) k in let e := bdeath (b_bars (hom d)) k in let g := colv (b_coords (hom d)) k in
  (e < max_rad -> bounds_at p Ds Rs d e g) /\ (forall r, b <= r < e -> ~ bounds_at p Ds Rs d r g).
Proof.
  intros Hd Hk b e g. destruct (out_ok d Hd) as (ims & gens & HO & IO & Hh & _).
  destruct (holds_nth _ _ _ _ _ _ k Hh Hk) as (x & Hx & _ & Eb & Ec).
  unfold b, e, g, bbirth, bdeath. rewrite Eb, Ec. split.
  - intros He. destruct (ho_fin _ _ _ _ _ _ _ HO x Hx He) as (h & Hh' & Ev & Ed). rewrite <- Ev.
    apply (im_bounds p max_rad Ds Rs d ims IO); auto. lia.
  - intros r Hr Hb. destruct (gen_piv p max_rad Ds Rs d ims gens HO x Hx) as [Hpv _].
    pose proof (ho_bar _ _ _ _ _ _ _ HO x Hx).
    apply (alive_not_bounds p max_rad n0 Ds Rs Hp d ims gens HO IO r (vget (snd x))) with (i := npiv (snd x)); auto; [lia|].
    apply span_in. exists x. split; auto. apply gens_at_In. auto.
Qed.

Lemma C22_aux d : (d < length Ds)%nat ->
  let I := im d in let pre := nth (S d) (ph_preim out) (Mat 0 []) in let n := length (b_bars I) in
  ncols pre = n /\ ncols (b_coords I) = n /\ nrows pre = csize Rs (S d) /\
  (forall k, (k < n)%nat -> bdeath (b_bars I) k = max_rad /\
     chain_at p Rs (S d) (bbirth (b_bars I) k) (colv pre k) /\
     forall i, bd_of Ds Rs (S d) (colv pre k) i mod p = colv (b_coords I) k i mod p) /\
  (forall r k, (k < n)%nat -> bbirth (b_bars I) k <= r -> bounds_at p Ds Rs d r (colv (b_coords I) k)) /\
  (forall r v, bounds_at p Ds Rs d r v -> exists c, (forall k, r < bbirth (b_bars I) k -> c k = 0) /\
     forall i, v i mod p = Zsum n (fun k => c k * colv (b_coords I) k i) mod p) /\
  (forall c, (forall i, Zsum n (fun k => c k * colv (b_coords I) k i) mod p = 0) -> forall k, (k < n)%nat -> c k mod p = 0).
Proof.
  intros Hd I pre n. destruct (out_ok d ltac:(lia)) as (ims & gens & HO & IO & _ & Hh & Hpre & _).
  fold I in Hh. specialize (Hpre Hd). fold pre in Hpre.
  assert (Hn : n = length ims) by (unfold n; rewrite (proj1 Hh), map_length; auto).
  assert (Hnth : forall k, (k < n)%nat -> exists x, In x ims /\ nth k ims x = x /\
     nth k (b_bars I) (0, 0) = fst (fst x) /\ colv (b_coords I) k = vget (gvec x)).
  { intros k Hk. apply (holds_nth _ _ _ _ _ _ k Hh Hk). }
  split; [rewrite Hpre; unfold ncols; cbn [cols]; rewrite map_length; auto|].
  split; [unfold ncols; rewrite (proj1 (proj2 Hh)), map_length; auto|].
  split; [rewrite Hpre; auto|]. split; [|split; [|split]].
  - intros k Hk. destruct (Hnth k Hk) as (x & Hx & Ex & Eb & Ec). unfold bdeath, bbirth. rewrite Eb, Ec.
    destruct (io_bar _ _ _ _ _ _ IO x Hx) as [_ ->]. split; auto.
    assert (Ep : colv pre k = vget (snd x)).
    { unfold colv, get, col. rewrite Hpre. cbn [cols]. rewrite (nth_map snd ims k x) by lia. rewrite Ex. reflexivity. }
    rewrite Ep. destruct (io_pre _ _ _ _ _ _ IO x Hx) as (_ & _ & E & (j & Hj & Ej & Hjp)). split.
    + apply (piv_chain p max_rad n0 Ds Rs Hp VC (S d) _ _ j); auto. unfold gdeath in Ej. lia.
    + intros i. apply (mod_cong p Hp). apply (E i).
  - intros r k Hk Hr. destruct (Hnth k Hk) as (x & Hx & Ex & Eb & Ec). rewrite Ec.
    apply (im_bounds p max_rad Ds Rs d ims IO); auto. unfold bbirth in Hr. rewrite Eb in Hr. exact Hr.
  - intros r v Hv. apply (io_bounds _ _ _ _ _ _ IO r) in Hv.
    assert (Hs : span p (fam n (fun k => bbirth (b_bars I) k <=? r) (colv (b_coords I))) v).
    { revert Hv. apply span_mono. intros u (h & Hh' & Hl & ->).
      destruct (holds_in _ _ _ _ _ _ h Hh Hh') as (k & Hk & _ & Eb & Ec). exists k. split; auto. split; auto.
      unfold bbirth. rewrite Eb. apply Z.leb_le. exact Hl. }
    apply span_lc in Hs. destruct Hs as (c & Hc & E). exists c. split.
    + intros k Hk. apply Hc. left. lia.
    + intros i. apply (mod_cong p Hp). apply (E i).
  - intros c Hc k Hk. apply (mod_cong0 p Hp).
    apply (piv_indep p Hp n (colv (b_coords I)) (fun k => nth k (map (fun x : imgen => npiv (gvec x)) ims) 0%nat) c); auto.
    + intros l Hl _. destruct (Hnth l Hl) as (x & Hx & Ex & _ & Ec). rewrite Ec.
      rewrite (nth_map _ ims l x) by lia. rewrite Ex. apply (im_piv p max_rad Ds Rs d ims x IO Hx).
    + intros l l' Hl Hl' _ _ El.
      apply (proj1 (NoDup_nth (map (fun x : imgen => npiv (gvec x)) ims) 0%nat) (io_nodup _ _ _ _ _ _ IO));
        rewrite ?map_length; auto; lia.
    + intros i. apply (mod_cong0 p Hp). apply Hc.
Qed.

Lemma C23_aux :
  length (ph_hom out) = S (length Ds) /\ length (ph_im out) = S (length Ds) /\ length (ph_preim out) = S (length Ds) /\
  forall d, (d <= length Ds)%nat ->
    (forall k, (k < length (b_bars (hom d)))%nat -> bbirth (b_bars (hom d)) k < bdeath (b_bars (hom d)) k <= max_rad) /\
    (forall i j, (i < j < length (b_bars (hom d)))%nat -> standard_before rnd (b_bars (hom d)) i j) /\
    (forall i j, (i < j < length (b_bars (im d)))%nat -> standard_before rnd (b_bars (im d)) i j) /\
    ncols (b_coords (hom d)) = length (b_bars (hom d)) /\ b_dim (hom d) = length (b_bars (hom d)) /\
    b_dim (im d) = length (b_bars (im d)) /\
    (forall k, (k < length (b_bars (hom d)))%nat -> length (col (b_coords (hom d)) k) = csize Rs d /\
       forall i, 0 <= colv (b_coords (hom d)) k i < p) /\
    (forall k, (k < length (b_bars (im d)))%nat -> length (col (b_coords (im d)) k) = csize Rs d /\
       forall i, 0 <= colv (b_coords (im d)) k i < p) /\
    (d = length Ds -> b_bars (im d) = []).
Proof.
  destruct (persistent_homology_ok p max_rad n0 Ds Rs Hp VC rnd) as (out' & E & L1 & L2 & L3 & _).
  rewrite Hout in E. injection E as <-. split; auto. split; auto. split; auto.
  intros d Hd. destruct (out_ok d Hd) as (ims & gens & HO & IO & Hh & Hi & _ & Ht).
  assert (Ecol : forall {G} (br : G -> Z * Z) (vc : G -> vec) b s k, holds br vc rnd (csize Rs d) b s ->
     (k < length (b_bars b))%nat -> exists g, In g s /\ col (b_coords b) k = vc g).
  { intros G br vc b s k (H1 & H2 & _) Hk. rewrite H1, map_length in Hk. unfold col. rewrite H2.
    assert (Hk' : (k < length (map vc s))%nat) by (rewrite map_length; auto).
    apply (nth_In _ []) in Hk'. apply in_map_iff in Hk'. destruct Hk' as (g & Eg & Hg). eauto. }
  repeat split.
  - destruct (holds_nth _ _ _ _ _ _ k Hh H) as (x & Hx & _ & Eb & _). unfold bbirth, bdeath. rewrite Eb.
    apply (ho_bar _ _ _ _ _ _ _ HO x Hx).
  - destruct (holds_nth _ _ _ _ _ _ k Hh H) as (x & Hx & _ & Eb & _). unfold bbirth, bdeath. rewrite Eb.
    apply (ho_bar _ _ _ _ _ _ _ HO x Hx).
  - intros i j Hij. destruct Hh as (H1 & _ & _ & _ & Hs & _). rewrite H1 in Hij |- *. apply (Hs i j Hij).
  - intros i j Hij. destruct Hi as (H1 & _ & _ & _ & Hs & _). rewrite H1 in Hij |- *. apply (Hs i j Hij).
  - unfold ncols. destruct Hh as (H1 & H2 & _). rewrite H1, H2, !map_length. reflexivity.
  - destruct Hh as (H1 & _ & H2 & _). rewrite H1, H2, !map_length. reflexivity.
  - destruct Hi as (H1 & _ & H2 & _). rewrite H1, H2, !map_length. reflexivity.
  - destruct (Ecol _ _ _ _ _ k Hh H) as (g & Hg & ->). apply (ho_len _ _ _ _ _ _ _ HO g Hg).
  - destruct (Ecol _ _ _ _ _ k Hh H) as (g & Hg & Eg). unfold colv, get. rewrite Eg. apply (ho_rng _ _ _ _ _ _ _ HO g Hg).
  - destruct (Ecol _ _ _ _ _ k Hh H) as (g & Hg & Eg). unfold colv, get. rewrite Eg. apply (ho_rng _ _ _ _ _ _ _ HO g Hg).
  - destruct (Ecol _ _ _ _ _ k Hi H) as (g & Hg & ->). apply (io_len _ _ _ _ _ _ IO g Hg).
  - destruct (Ecol _ _ _ _ _ k Hi H) as (g & Hg & Eg). unfold colv, get. rewrite Eg. apply (io_rng _ _ _ _ _ _ IO g Hg).
  - destruct (Ecol _ _ _ _ _ k Hi H) as (g & Hg & Eg). unfold colv, get. rewrite Eg. apply (io_rng _ _ _ _ _ _ IO g Hg).
  - intros ->. rewrite (proj1 Hi). rewrite Ht by auto. reflexivity.
Qed.

(** Number of bars spanning [r, s] = rank of the map induced in homology. *)
Lemma C50_aux d r s : (d <= length Ds)%nat -> r <= s < max_rad ->
  (exists z b, has_dim p (cycle_at p Ds Rs d r) z /\
     has_dim p (fun v => cycle_at p Ds Rs d r v /\ bounds_at p Ds Rs d s v) b) /\
  forall z b, has_dim p (cycle_at p Ds Rs d r) z ->
    has_dim p (fun v => cycle_at p Ds Rs d r v /\ bounds_at p Ds Rs d s v) b ->
    (count_bars (spans r s) (b_bars (hom d)) + b = z)%nat.
Proof.
  intros Hd Hrs. destruct (out_ok d Hd) as (ims & gens & HO & IO & Hh & _).
  pose proof (cycles_dim p max_rad n0 Ds Rs Hp VC d ims gens HO IO r ltac:(lia)) as HZ.
  pose proof (bounds_rs_dim p max_rad n0 Ds Rs Hp VC d ims IO r s) as HB.
  apply (has_dim_ext p _ (fun v => cycle_at p Ds Rs d r v /\ bounds_at p Ds Rs d s v)) in HB.
  2:{ intros v. split; intros [H1 H2]; split; auto.
      - split; auto. apply (bounds_cycle p max_rad n0 Ds Rs Hp VC d ims IO s); auto. lia.
      - apply H1. }
  split; [eauto|]. intros z b Hz Hb. rewrite (has_dim_unique p Hp _ _ _ Hz HZ), (has_dim_unique p Hp _ _ _ Hb HB).
  rewrite (proj1 Hh). symmetry. apply (count_rs p max_rad n0 Ds Rs Hp VC d ims gens HO IO); auto.
Qed.

Lemma C25_aux d r : (d <= length Ds)%nat -> r < max_rad ->
  (exists z b, has_dim p (cycle_at p Ds Rs d r) z /\ has_dim p (bounds_at p Ds Rs d r) b) /\
  forall z b, has_dim p (cycle_at p Ds Rs d r) z -> has_dim p (bounds_at p Ds Rs d r) b ->
    (count_bars (spans r r) (b_bars (hom d)) + b = z)%nat.
Proof.
  intros Hd Hr. destruct (out_ok d Hd) as (ims & gens & HO & IO & Hh & _).
  destruct (C50_aux d r r Hd ltac:(lia)) as [_ H].
  pose proof (cycles_dim p max_rad n0 Ds Rs Hp VC d ims gens HO IO r Hr) as HZ.
  pose proof (bounds_dim p max_rad n0 Ds Rs Hp d ims IO r) as HB.
  split; [eauto|]. intros z b Hz Hb. apply H; auto.
  eapply has_dim_ext; [|exact Hb]. intros v. split; [|tauto]. intros Hv. split; auto.
  apply (bounds_cycle p max_rad n0 Ds Rs Hp VC d ims IO); auto.
Qed.
End Final.

Lemma C23_total_aux : forall rnd p max_rad n0 Ds Rs,
  prime p -> valid_complex p max_rad n0 Ds Rs ->
  exists out, persistent_homology rnd n0 Ds Rs max_rad p = Ok out.
Proof.
  intros rnd p max_rad n0 Ds Rs Hp VC.
  destruct (persistent_homology_ok p max_rad n0 Ds Rs Hp VC rnd) as (out & E & _). eauto.
Qed.
