(** * Properties of the 0 page, the Cech differential, the lifts and the first page *)
From Verif Require Import Base ListX SortX Lin Gauss_arith Basis_model PH_model PH_lin PH_props Simp_model Spec_Simp Simp_lists Simp_diff Simp_props
  Spec_PH Spec_Rips Rips_bd Rips_chain Rips_props LC_model Spec_LC LC_props SS_model Spec_SS SS_inv SS_page SS_cech SS_lift SS_zig SS_first.
From Coq Require Import Sorted Permutation Znumtheory.
Local Open Scope Z_scope.

Section Props.
Variables (argsort : list Z -> list nat) (rnd : Z -> Z) (Dist : list (list Z)) (max_r max_dim p : Z)
  (IN : list (list (list nat))) (n0 : nat) (nerve : list (list simplex)).
Hypothesis HI : mv_input argsort Dist max_r max_dim p IN n0 nerve.
Let m := Z.to_nat max_dim.
Local Notation lev := (level n0 nerve).
Local Notation page := (zero_page argsort rnd Dist max_r max_dim p IN n0 nerve).
Let Hp := mv_prime _ _ _ _ _ _ _ _ HI.

Lemma ciff a b : cong p a b <-> a mod p = b mod p.
Proof. apply cong_iff_mod. pose proof (prime_ge_2 _ Hp). lia. Qed.

Lemma zero_page_total_aux : exists S, page = Ok S.
Proof. destruct (zero_page_total _ rnd _ _ _ _ _ _ _ HI) as (S & E & _). eauto. Qed.

(** The local complexes and their homology. *)
Lemma zero_page_aux S : page = Ok S -> forall n k, (n < length nerve)%nat -> (k < length (lev n))%nat ->
  (forall d, (d <= m)%nat -> NoDup (simplices IN S n k d) /\
     forall T, In T (simplices IN S n k d) <-> clique (length Dist) (near Dist max_r) d T /\ incl T (ins_of IN n k)) /\
  forall d r, (d < m)%nat -> r < max_r ->
    quotient_basis p (local_cycle p Dist IN S n d k r) (local_bounds p Dist IN S n d k r)
      (length (b_bars (hom_of S n k d))) (colv (b_coords (hom_of S n k d)))
      (fun h => bbirth (b_bars (hom_of S n k d)) h <= r < bdeath (b_bars (hom_of S n k d)) h).
Proof.
  intros E n k Hn Hk. pose proof (zero_page_ok _ _ _ _ _ _ _ _ _ HI S E) as PO. split.
  - intros d Hd. split; [apply (G_NoDup _ _ _ _ _ _ _ _ _ HI S PO n k Hn Hk)|]. intros T. apply (G_In _ _ _ _ _ _ _ _ _ HI S PO n k Hn Hk d T Hd).
  - intros d r Hd Hr. destruct (loc_ok _ _ _ _ _ _ _ _ _ S PO n k Hn Hk) as [R OK].
    pose proof (lo_valid _ _ _ _ _ _ _ _ OK) as VC. pose proof (lo_ph _ _ _ _ _ _ _ _ OK) as PH. pose proof (lo_Ds _ _ _ _ _ _ _ _ OK) as LD.
    assert (Hdd : (d <= length (l_Ds (loc_of S n k)))%nat) by (rewrite LD; fold m; lia).
    pose proof (C20_aux rnd p max_r _ _ R _ Hp VC PH d r Hdd Hr) as (H1 & H2 & H3).
    change (nth d (ph_hom (l_out (loc_of S n k))) empty_basis) with (hom_of S n k d) in *.
    split; [|split].
    + intros h Hh Ha. apply (cycle_iff _ _ _ _ _ _ _ _ _ HI S PO n k Hn Hk R OK d); [fold m; lia|]. apply H1; auto.
    + intros v Hv. apply (cycle_iff _ _ _ _ _ _ _ _ _ HI S PO n k Hn Hk R OK d) in Hv; [|fold m; lia]. destruct (H2 v Hv) as (c & Hc & Hb).
      exists c. split; auto. apply (bounds_iff _ _ _ _ _ _ _ _ _ HI S PO n k Hn Hk R OK d); auto.
    + intros c Hc Hb. apply H3; auto. apply (bounds_iff _ _ _ _ _ _ _ _ _ HI S PO n k Hn Hk R OK d) in Hb; auto.
Qed.

(** ** Cech differential *)
Lemma cech_total_aux S : page = Ok S -> forall n deg start, (Datatypes.S n < length nerve)%nat -> (deg <= m)%nat -> has_cofaces n0 nerve n ->
  good (sizes IN n0 nerve S (Datatypes.S n) deg) start ->
  exists c, cech_diff S n deg start = Ok c /\ good (sizes IN n0 nerve S n deg) c /\
    forall k g j, (k < length (lev n))%nat -> value c k g j mod p = cech_image n0 nerve IN S n deg k (fun s => value start s g) j mod p.
Proof.
  intros E n deg start Hn Hd Hc Hg. pose proof (zero_page_ok _ _ _ _ _ _ _ _ _ HI S E) as PO.
  destruct (cech_diff_ok _ _ _ _ _ _ _ _ _ HI S PO n deg start Hn ltac:(unfold m in Hd; lia) Hc Hg) as (c & Ec & Hgc & _).
  exists c. split; auto. split; auto. intros k g j Hk. apply ciff.
  apply (cech_value _ _ _ _ _ _ _ _ _ HI S PO); auto.
Qed.

Lemma value_zero_out ws c k g j : good ws c -> (length ws <= k)%nat -> value c k g j = 0.
Proof. intros H Hk. unfold value. rewrite nth_overflow; [reflexivity|]. rewrite (good_length _ _ H). exact Hk. Qed.

Lemma C43_aux S : page = Ok S -> forall n deg start, (Datatypes.S (Datatypes.S n) < length nerve)%nat -> (deg <= m)%nat ->
  has_cofaces n0 nerve n -> has_cofaces n0 nerve (Datatypes.S n) ->
  good (sizes IN n0 nerve S (Datatypes.S (Datatypes.S n)) deg) start ->
  exists c c', cech_diff S (Datatypes.S n) deg start = Ok c /\ cech_diff S n deg c = Ok c' /\ forall k g j, value c' k g j mod p = 0.
Proof.
  intros E n deg start Hn Hd Hc Hc' Hg. pose proof (zero_page_ok _ _ _ _ _ _ _ _ _ HI S E) as PO.
  destruct (cech_total_aux S E (Datatypes.S n) deg start Hn Hd Hc' Hg) as (c & Ec & Hgc & _).
  destruct (cech_total_aux S E n deg c ltac:(lia) Hd Hc Hgc) as (c' & Ec' & Hgc' & _).
  exists c, c'. split; auto. split; auto. intros k g j.
  destruct (Nat.lt_ge_cases k (length (lev n))) as [Hk|Hk].
  2:{ rewrite (value_zero_out _ c' k g j Hgc'); [apply Zmod_0_l|]. unfold sizes. rewrite map_length, seq_length. auto. }
  destruct (Nat.lt_ge_cases j (length (simplices IN S n k deg))) as [Hj|Hj].
  2:{ rewrite (good_out _ c' k g j Hgc'); [apply Zmod_0_l|]. rewrite sizes_nth by auto. auto. }
  apply z_iff; [destruct Hp; lia|]. apply (cech_square _ _ _ _ _ _ _ _ _ HI S PO n deg start c c'); auto.
Qed.

Lemma C44_aux S : page = Ok S -> forall n deg c c', (Datatypes.S n < length nerve)%nat -> (deg < m)%nat -> has_cofaces n0 nerve n ->
  good (sizes IN n0 nerve S (Datatypes.S n) (Datatypes.S deg)) c -> good (sizes IN n0 nerve S (Datatypes.S n) deg) c' ->
  (forall s g j, (s < length (lev (Datatypes.S n)))%nat -> value c' s g j mod p = local_bd IN S (Datatypes.S n) deg s (value c s g) j mod p) ->
  exists d d', cech_diff S n (Datatypes.S deg) c = Ok d /\ cech_diff S n deg c' = Ok d' /\
  forall k g j, (k < length (lev n))%nat -> (local_bd IN S n deg k (value d k g) j + value d' k g j) mod p = 0.
Proof.
  intros E n deg c c' Hn Hd Hc Hg Hg' H. pose proof (zero_page_ok _ _ _ _ _ _ _ _ _ HI S E) as PO.
  destruct (cech_total_aux S E n (Datatypes.S deg) c Hn ltac:(lia) Hc Hg) as (d & Ed & Hgd & _).
  destruct (cech_total_aux S E n deg c' Hn ltac:(lia) Hc Hg') as (d' & Ed' & Hgd' & _).
  exists d, d'. split; auto. split; auto. intros k g j Hk. apply z_iff; [destruct Hp; lia|].
  destruct (Nat.lt_ge_cases j (length (simplices IN S n k deg))) as [Hj|Hj].
  - apply (cech_vertical _ _ _ _ _ _ _ _ _ HI S PO n deg c c' d d' g); auto. intros s j' Hs Hj'. apply ciff. apply H. auto.
  - rewrite (good_out _ d' k g j Hgd') by (rewrite sizes_nth by auto; auto).
    rewrite (vbd_out _ _ _ _ _ _ _ _ _ S PO n deg k _ j ltac:(lia) Hk Hd Hj). reflexivity.
Qed.

(** A face of the nerve without cofaces makes the code fail. *)
Lemma no_coface_aux S : page = Ok S -> forall n deg start t, (Datatypes.S n < length nerve)%nat -> In t (lev n) ->
  (forall s k, In s (lev (Datatypes.S n)) -> (k <= Datatypes.S n)%nat -> t <> facet k s) ->
  forall k, nth k (lev n) [] = t -> (k < length (lev n))%nat -> cech_diff_local S start n deg k = Err IndexError.
Proof.
  intros E n deg start t Hn Ht Hno k Ek Hk. pose proof (zero_page_ok _ _ _ _ _ _ _ _ _ HI S E) as PO.
  destruct (ndiff_ok _ _ _ _ _ _ _ _ _ HI S PO n ltac:(lia)) as (E1 & W & N1 & N2 & H). unfold cech_diff_local. rewrite E1. cbn [bind].
  unfold row_err. rewrite N1. destruct (Nat.ltb_spec k (length (lev n))); [|lia]. cbn [bind].
  assert (Hz : forall s, (s < length (lev (Datatypes.S n)))%nat -> vget (nth s (cols (nth n (s_ndiff S) (Mat 0 []))) []) k = 0).
  { intros s Hs. change (get (nth n (s_ndiff S) (Mat 0 [])) k s = 0). rewrite H by auto. rewrite bdc_other; [rewrite Z.mul_0_r; apply Zmod_0_l|].
    intros i Hi. rewrite Ek. apply Hno; [apply nth_In; auto|]. destruct (cov_simp _ _ _ _ (mv_cover _ _ _ _ _ _ _ _ HI)) as (Hwf & _).
    destruct (Hwf (Datatypes.S n) (nth s (lev (Datatypes.S n)) [])) as (L & _); [apply nth_In; auto|]. lia. }
  set (D := nth n (s_ndiff S) (Mat 0 [])) in *. unfold ncols in N2.
  replace (nonzero_entries (map (fun c => vget c k) (cols D))) with (@nil (nat * Z)); [reflexivity|].
  symmetry. unfold nonzero_entries. rewrite (filter_ext_in _ (fun _ => false)); [clear; induction (combine _ _); simpl; auto|].
  intros [i x] Hx. cbn [snd]. apply (In_nth _ _ (0%nat, 0)) in Hx. destruct Hx as (q & Hq & Eq). rewrite combine_length, seq_length, map_length in Hq.
  rewrite combine_nth in Eq by (rewrite seq_length, map_length; reflexivity). injection Eq as _ Ex.
  rewrite (nth_map (fun c => vget c k) (cols D) q []) in Ex by lia. rewrite Hz in Ex by lia. rewrite <- Ex. reflexivity.
Qed.

(** ** Lifts *)
Lemma C45_total_aux S : page = Ok S -> forall n k deg rows radii, (n < length nerve)%nat -> (k < length (lev n))%nat -> (deg <= m)%nat ->
  Forall (fun v => length v = length (simplices IN S n k deg)) rows -> length radii = length rows ->
  (forall g, (g < length rows)%nat -> nth g radii 0 < max_r /\ local_cycle p Dist IN S n deg k (nth g radii 0) (vget (nth g rows []))) ->
  exists o, first_page_local_lift S n deg (length (simplices IN S n k deg)) rows radii k = Ok o.
Proof.
  intros E n k deg rows radii Hn Hk Hd Hr Hl Hcyc. pose proof (zero_page_ok _ _ _ _ _ _ _ _ _ HI S E) as PO.
  destruct (loc_ok _ _ _ _ _ _ _ _ _ S PO n k Hn Hk) as [R OK].
  pose proof (lo_valid _ _ _ _ _ _ _ _ OK) as VC. pose proof (lo_ph _ _ _ _ _ _ _ _ OK) as PH. pose proof (lo_Ds _ _ _ _ _ _ _ _ OK) as LD.
  assert (Hdd : (deg <= length (l_Ds (loc_of S n k)))%nat) by (rewrite LD; exact Hd).
  pose proof (csize_G _ _ _ _ _ _ _ n k R OK deg) as Ew. rewrite <- Ew in *.
  apply (local_lift_total rnd p max_r _ _ R _ Hp VC PH S n k deg (loc_of S n k) Hdd (po_p _ _ _ _ _ _ _ _ _ _ PO)
          (the_local_ok _ _ _ _ _ _ _ _ _ S PO n k Hn Hk) eq_refl rows radii Hr Hl).
  intros g Hg. destruct (Hcyc g Hg) as [H1 H2]. split; auto. apply (cycle_iff _ _ _ _ _ _ _ _ _ HI S PO n k Hn Hk R OK deg); auto.
Qed.

Lemma C45_aux S : page = Ok S -> forall n k deg rows radii o, (n < length nerve)%nat -> (k < length (lev n))%nat -> (deg <= m)%nat ->
  Forall (fun v => length v = length (simplices IN S n k deg)) rows -> length radii = length rows ->
  first_page_local_lift S n deg (length (simplices IN S n k deg)) rows radii k = Ok o ->
  match o with
  | None => rows = [] \/ (b_bars (im_of S n k deg) = [] /\ b_bars (hom_of S n k deg) = [])
  | Some (gammas, betas) =>
      let im := im_of S n k deg in let hom := hom_of S n k deg in
      nrows gammas = length (b_bars im) /\ nrows betas = length (b_bars hom) /\
      ncols gammas = length rows /\ ncols betas = length rows /\
      forall g, (g < length rows)%nat ->
        (forall a, get gammas a g <> 0 -> (a < length (b_bars im))%nat /\ bbirth (b_bars im) a <= nth g radii 0) /\
        (forall h, get betas h g <> 0 -> (h < length (b_bars hom))%nat /\ bbirth (b_bars hom) h <= nth g radii 0 /\
           (nth g radii 0 < bdeath (b_bars hom) h \/ max_r <= bdeath (b_bars hom) h)) /\
        forall i, vget (nth g rows []) i mod p =
          (Zsum (length (b_bars im)) (fun a => get gammas a g * get (b_coords im) i a)
           + Zsum (length (b_bars hom)) (fun h => get betas h g * get (b_coords hom) i h)) mod p
  end.
Proof.
  intros E n k deg rows radii o Hn Hk Hd Hr Hl Eo. pose proof (zero_page_ok _ _ _ _ _ _ _ _ _ HI S E) as PO.
  destruct (loc_ok _ _ _ _ _ _ _ _ _ S PO n k Hn Hk) as [R OK].
  pose proof (lo_valid _ _ _ _ _ _ _ _ OK) as VC. pose proof (lo_ph _ _ _ _ _ _ _ _ OK) as PH. pose proof (lo_Ds _ _ _ _ _ _ _ _ OK) as LD.
  assert (Hdd : (deg <= length (l_Ds (loc_of S n k)))%nat) by (rewrite LD; exact Hd).
  pose proof (csize_G _ _ _ _ _ _ _ n k R OK deg) as Ew. rewrite <- Ew in *.
  pose proof (local_lift_sound rnd p max_r _ _ R _ Hp VC PH S n k deg (loc_of S n k) Hdd (po_p _ _ _ _ _ _ _ _ _ _ PO)
          (the_local_ok _ _ _ _ _ _ _ _ _ S PO n k Hn Hk) eq_refl rows radii Hr Hl o Eo) as H.
  destruct o as [[gammas betas]|]; [|exact H]. cbv zeta. destruct H as (H1 & H2 & H3 & H4 & _ & _ & H5).
  repeat (split; [assumption|]). intros g Hg. destruct (H5 g Hg) as (A & B & C). split; [exact A|]. split; [exact B|].
  intros i. apply ciff. apply C.
Qed.

(** The columns of [Im] born by a radius span the boundaries there. *)
Lemma im_boundaries_aux S : page = Ok S -> forall n k d, (n < length nerve)%nat -> (k < length (lev n))%nat -> (d < m)%nat ->
  let I := im_of S n k d in
  (forall r a, (a < length (b_bars I))%nat -> bbirth (b_bars I) a <= r -> local_bounds p Dist IN S n d k r (colv (b_coords I) a)) /\
  forall r v, local_bounds p Dist IN S n d k r v -> exists c, (forall a, r < bbirth (b_bars I) a -> c a = 0) /\
    forall i, v i mod p = Zsum (length (b_bars I)) (fun a => c a * colv (b_coords I) a i) mod p.
Proof.
  intros E n k d Hn Hk Hd I. pose proof (zero_page_ok _ _ _ _ _ _ _ _ _ HI S E) as PO.
  destruct (loc_ok _ _ _ _ _ _ _ _ _ S PO n k Hn Hk) as [R OK].
  pose proof (lo_valid _ _ _ _ _ _ _ _ OK) as VC. pose proof (lo_ph _ _ _ _ _ _ _ _ OK) as PH. pose proof (lo_Ds _ _ _ _ _ _ _ _ OK) as LD.
  assert (Hdd : (d < length (l_Ds (loc_of S n k)))%nat) by (rewrite LD; exact Hd).
  destruct (C22_aux rnd p max_r _ _ R _ Hp VC PH d Hdd) as (_ & _ & _ & _ & H1 & H2 & _).
  split.
  - intros r a Ha Hb. apply (bounds_iff _ _ _ _ _ _ _ _ _ HI S PO n k Hn Hk R OK d r _ Hd). apply H1; auto.
  - intros r v Hv. apply H2. apply (bounds_iff _ _ _ _ _ _ _ _ _ HI S PO n k Hn Hk R OK d r v Hd); auto.
Qed.

Lemma C46_aux S : page = Ok S -> forall n deg start R, (Datatypes.S n < length nerve)%nat -> (deg < m)%nat -> has_cofaces n0 nerve n ->
  good (sizes IN n0 nerve S (Datatypes.S n) deg) start ->
  (forall s g, In g (le_ref (nth s start (LEntry [] LNil))) -> (g < length R)%nat) ->
  (forall g, (g < length R)%nat -> nth g R 0 < max_r) ->
  (forall s g, (s < length (lev (Datatypes.S n)))%nat -> (g < length R)%nat -> local_cycle p Dist IN S (Datatypes.S n) deg s (nth g R 0) (value start s g)) ->
  (R <> [] -> lev n <> []) ->
  exists B lifts, cech_diff_and_lift S n deg start R = Ok (B, lifts) /\
    nrows B = length R /\ ncols B = classes n0 nerve S n deg /\ (forall g h, 0 <= get B g h < p) /\
    good (sizes IN n0 nerve S n (Datatypes.S deg)) lifts /\
    forall k g, (k < length (lev n))%nat -> (g < length R)%nat ->
      let H := hom_of S n k deg in
      let img := cech_image n0 nerve IN S n deg k (fun s => value start s g) in
      local_chain p Dist IN S n (Datatypes.S deg) k (nth g R 0) (value lifts k g) /\
      (forall h, (h < length (b_bars H))%nat -> get B g (classes_before S n deg k + h) <> 0 -> bbirth (b_bars H) h <= nth g R 0 < bdeath (b_bars H) h) /\
      (b_bars H <> [] -> forall j, (img j + local_bd IN S n deg k (value lifts k g) j) mod p =
         Zsum (length (b_bars H)) (fun h => get B g (classes_before S n deg k + h) * get (b_coords H) j h) mod p).
Proof.
  intros E n deg start R Hn Hd Hc Hg HR Hlt Hcyc Hlev. pose proof (zero_page_ok _ _ _ _ _ _ _ _ _ HI S E) as PO.
  destruct (cech_diff_and_lift_ok _ _ _ _ _ _ _ _ _ HI S PO n deg start R Hn Hd Hc Hg HR Hlt Hcyc Hlev) as (c & B & lifts & Ec & Eb & B1 & B2 & _ & B4 & B5 & _ & HB).
  exists B, lifts. split; [auto|]. split; [auto|].
  split; [rewrite B2; apply (dims_classes _ _ _ _ _ _ _ _ _ HI S PO n deg); [lia|fold m; lia]|]. split; [auto|]. split; [auto|].
  intros k g Hk Hgr. destruct (HB k g Hk Hgr) as (_ & H2 & H3 & H4 & _). cbv zeta in *.
  rewrite (before_classes _ _ _ _ _ _ _ _ _ HI S PO n deg k) in H3, H4 by (try lia; fold m; lia). split; [auto|]. split; [auto|].
  intros Hne j. apply ciff. rewrite <- (H4 Hne j). apply cong_add; [|reflexivity]. symmetry.
  apply (cech_value _ _ _ _ _ _ _ _ _ HI S PO); auto. fold m. lia.
Qed.

Lemma d1_aux S : page = Ok S -> forall n deg, (Datatypes.S n < length nerve)%nat -> (deg < m)%nat -> has_cofaces n0 nerve n ->
  exists o, first_differential S n deg = Ok o /\
  match o with
  | None => classes n0 nerve S (Datatypes.S n) deg = 0%nat
  | Some B =>
      nrows B = classes n0 nerve S (Datatypes.S n) deg /\ ncols B = classes n0 nerve S n deg /\ (forall g h, 0 <= get B g h < p) /\
      forall s a k, (s < length (lev (Datatypes.S n)))%nat -> (a < length (b_bars (hom_of S (Datatypes.S n) s deg)))%nat -> (k < length (lev n))%nat ->
        let g := (classes_before S (Datatypes.S n) deg s + a)%nat in
        let r := bbirth (b_bars (hom_of S (Datatypes.S n) s deg)) a in
        let H := hom_of S n k deg in
        let img := cech_image n0 nerve IN S n deg k (fun s' i => if Nat.eqb s' s then get (b_coords (hom_of S (Datatypes.S n) s deg)) i a else 0) in
        local_cycle p Dist IN S n deg k r img /\
        (forall h, (h < length (b_bars H))%nat -> get B g (classes_before S n deg k + h) <> 0 -> bbirth (b_bars H) h <= r < bdeath (b_bars H) h) /\
        local_bounds p Dist IN S n deg k r (fun j => img j - Zsum (length (b_bars H)) (fun h => get B g (classes_before S n deg k + h) * get (b_coords H) j h))
  end.
Proof.
  intros E n deg Hn Hd Hc. pose proof (zero_page_ok _ _ _ _ _ _ _ _ _ HI S E) as PO.
  destruct (first_differential_ok _ _ _ _ _ _ _ _ _ HI S PO n deg Hn Hd Hc) as (o & Eo & H). exists o. split; auto.
  destruct o as [B|]; auto. destruct H as (_ & H1 & H2 & _ & H3 & H4). auto.
Qed.
End Props.

(** ** C47 *)
Definition window_start (cyc : list nat) (k : nat) : nat := match k with O => last cyc 0%nat | S k' => nth k' cyc 0%nat end.

Lemma firstn_S_map {A} (f : nat -> A) k N : (k < N)%nat -> firstn (S k) (map f (seq 0 N)) = map f (seq 0 (S k)).
Proof. intros H. rewrite firstn_map, firstn_seq0 by lia. reflexivity. Qed.

Lemma C47_aux rows out : out <> [] ->
  (forall deg l, (deg < rows)%nat -> In l out -> (deg < length (ph_hom (l_out l)))%nat /\
     b_dim (nth deg (ph_hom (l_out l)) empty_basis) = length (b_bars (nth deg (ph_hom (l_out l)) empty_basis))) ->
  exists c, add_output_first rows out (length out) = Ok c /\ c_loc c = out /\ forall deg, (deg < rows)%nat ->
    let N := length out in
    let bars k := b_bars (nth deg (ph_hom (l_out (nth k out no_local))) empty_basis) in
    let cyc := nth deg (c_cyc c) [] in
    let total := list_sum (map (fun k => length (bars k)) (seq 0 N)) in
    length cyc = S N /\ nth N cyc 0%nat = 0%nat /\
    (forall k, (k < N)%nat -> nth k cyc 0%nat = list_sum (map (fun k => length (bars k)) (seq 0 (S k)))) /\
    nth deg (c_dim c) 0%nat = total /\
    nth deg (c_bars c) [] = concat (map bars (seq 0 N)) /\
    (forall g, (g < total)%nat -> exists k, (k < N)%nat /\ (window_start cyc k <= g < nth k cyc 0)%nat /\
       nth g (nth deg (c_bars c) []) (0, 0) = nth (g - window_start cyc k) (bars k) (0, 0) /\
       forall k', (k' < N)%nat -> (window_start cyc k' <= g < nth k' cyc 0)%nat -> k' = k).
Proof.
  intros Hne H. destruct (add_output_first_ok rows out Hne) as (c & Ec & Hloc & _ & _ & _ & Hrow).
  { intros deg l Hd Hl. destruct (H deg l Hd Hl) as [H1 H2]. exists (nth deg (ph_hom (l_out l)) empty_basis). split; auto. apply nth_err_nth. auto. }
  exists c. split; auto. split; auto. intros deg Hd N bars cyc total. destruct (Hrow deg Hd) as (hs & Lh & Nh & Dh & Ecyc & Edim & Ebars).
  set (lens := map (fun k => length (bars k)) (seq 0 N)).
  assert (Hhs : forall k, (k < N)%nat -> b_bars (nth k hs empty_basis) = bars k).
  { intros k Hk. unfold bars. f_equal. specialize (Nh k no_local Hk). unfold hom0 in Nh. symmetry. apply (nth_err_inv _ _ _ empty_basis Nh). }
  assert (Ed : map b_dim hs = lens).
  { unfold lens. apply (nth_ext _ _ 0%nat 0%nat); rewrite !map_length, ?seq_length; [exact Lh|]. intros k Hk. rewrite Lh in Hk. fold N in Hk.
    rewrite nth_map_seq by auto. rewrite (nth_map b_dim hs k empty_basis) by (rewrite Lh; exact Hk). rewrite <- Hhs by auto. apply Dh. apply nth_In. rewrite Lh. exact Hk. }
  assert (Eb : map b_bars hs = map bars (seq 0 N)).
  { apply (nth_ext _ _ [] []); rewrite !map_length, ?seq_length; [exact Lh|]. intros k Hk. rewrite Lh in Hk. fold N in Hk.
    rewrite nth_map_seq by auto. rewrite (nth_map b_bars hs k empty_basis) by (rewrite Lh; exact Hk). auto. }
  rewrite Ed in *. rewrite Eb in Ebars.
  assert (Ll : length lens = N) by (unfold lens; rewrite map_length, seq_length; reflexivity).
  assert (Ncyc : forall k, (k < N)%nat -> nth k cyc 0%nat = list_sum (firstn (S k) lens)).
  { intros k Hk. unfold cyc. rewrite Ecyc. rewrite app_nth1 by (rewrite cumulate_length; lia). rewrite cumulate_nth by lia. reflexivity. }
  assert (Hst : forall k, (k < N)%nat -> window_start cyc k = list_sum (firstn k lens)).
  { intros [|k] Hk; cbn [window_start]; [unfold cyc; rewrite Ecyc, last_last; reflexivity|]. apply Ncyc. lia. }
  split; [unfold cyc; rewrite Ecyc, app_length, cumulate_length; simpl; lia|].
  split; [unfold cyc; rewrite Ecyc, app_nth2 by (rewrite cumulate_length; lia); rewrite cumulate_length, Ll, Nat.sub_diag; reflexivity|].
  split; [intros k Hk; rewrite Ncyc by auto; unfold lens; rewrite firstn_S_map by auto; reflexivity|].
  split; [exact Edim|]. split; [exact Ebars|].
  intros g Hg. destruct (window_exists lens g Hg) as (k & Hk & Hw). rewrite Ll in Hk.
  exists k. rewrite Hst, Ncyc by auto. split; [auto|]. split; [auto|]. split.
  - rewrite Ebars. rewrite list_sum_firstn_S in Hw by lia.
    replace g with (list_sum (firstn k lens) + (g - list_sum (firstn k lens)))%nat at 1 by lia.
    apply (nth_concat_blocks bars lens N); auto; [intros i Hi; unfold lens; rewrite nth_map_seq by auto; reflexivity|lia].
  - intros k' Hk' Hw'. rewrite Hst, Ncyc in Hw' by auto. apply (window_unique lens g); auto.
Qed.

Lemma C47_empty rows nspx : exists c, add_output_first rows [] nspx = Ok c /\ c_cyc c = [] /\ (forall deg, nth deg (c_dim c) 0%nat = 0%nat) /\ forall deg, nth deg (c_bars c) [] = [].
Proof.
  eexists. split; [reflexivity|]. cbn [c_cyc c_dim c_bars]. split; [reflexivity|]. split; intros deg.
  - destruct (nth_in_or_default deg (repeat 0%nat rows) 0%nat) as [X|X]; auto. apply repeat_spec in X. auto.
  - destruct (nth_in_or_default deg (repeat (@nil bar) rows) []) as [X|X]; auto. apply repeat_spec in X. auto.
Qed.
