(** * Representatives of the classes of the second page *)
From Coq Require Import QArith.
From Verif Require Import Base ListX SortX Lin Gauss_model Gauss_arith Gauss_solve Basis_model Basis_props PH_model PH_loop PH_lin PH_step PH_props Simp_model Spec_Simp Simp_lists Simp_diff Simp_props
  Spec_PH Spec_Rips Rips_bd Rips_chain Rips_props LC_model Spec_LC LC_props SS_model Spec_SS SS_inv SS_page SS_cech SS_lift SS_zig SS_first SS_double SS_fplift
  IK_model IK_lin IK_abs IK_quot IK_mph MPH_props Spec_IK Spec_Bars Bars MPH_bars Bars_weak Bars_complex Spec_E2 Blocks SS_rows Cover_model HP_model HP_table HP_row.
From Coq Require Import Sorted Permutation Znumtheory.
Local Open Scope Z_scope.

Local Notation e0 := (LEntry [] LNil).

(** A loop over the windows given by cumulated dimensions, in which empty windows are passed over. *)
Lemma window_fold {C} (f : C * nat -> nat * nat -> res (C * nat)) (Q : nat -> C -> Prop) ds : forall s a c st,
  (forall c prev kn, Nat.ltb prev (snd kn) = false -> f (c, prev) kn = Ok (c, snd kn)) ->
  (forall i c st', (i < length ds)%nat -> Q (s + i)%nat c -> (0 < nth i ds 0)%nat ->
     f (c, (a + list_sum (firstn i ds))%nat) ((s + i)%nat, (a + list_sum (firstn i ds) + nth i ds 0)%nat) = Ok st' ->
     snd st' = (a + list_sum (firstn i ds) + nth i ds 0)%nat /\ Q (Datatypes.S (s + i)) (fst st')) ->
  (forall i c, (i < length ds)%nat -> nth i ds 0%nat = 0%nat -> Q (s + i)%nat c -> Q (Datatypes.S (s + i)) c) ->
  Q s c -> foldM f (combine (seq s (length ds)) (cumulate a ds)) (c, a) = Ok st -> Q (s + length ds)%nat (fst st).
Proof.
  induction ds as [|x ds IH]; intros s a c st H0 H1 H2 HQ E.
  - cbn in E. injection E as <-. cbn [length fst]. rewrite Nat.add_0_r. exact HQ.
  - cbn [length seq cumulate combine foldM] in E.
    assert (Hstep : exists c1, f (c, a) (s, (a + x)%nat) = Ok (c1, (a + x)%nat) /\ Q (Datatypes.S s) c1).
    { destruct x as [|x].
      - exists c. split; [rewrite H0; [reflexivity|cbn [snd]; apply Nat.ltb_ge; lia]|]. specialize (H2 0%nat c ltac:(cbn; lia) eq_refl). rewrite Nat.add_0_r in H2. auto.
      - destruct (f (c, a) (s, (a + Datatypes.S x)%nat)) as [[c1 a1]|] eqn:E1; [|discriminate]. specialize (H1 0%nat c (c1, a1) ltac:(cbn; lia)).
        cbn [firstn nth] in H1. change (list_sum []) with 0%nat in H1. rewrite !Nat.add_0_r in H1. destruct (H1 HQ ltac:(lia) E1) as [X Y]. cbn [fst snd] in X, Y. subst a1. eauto. }
    destruct Hstep as (c1 & E1 & HQ1). rewrite E1 in E. cbn [bind] in E.
    replace (s + length (x :: ds))%nat with (Datatypes.S s + length ds)%nat by (cbn [length]; lia).
    apply (IH (Datatypes.S s) (a + x)%nat c1 st); auto.
    + intros i c' st' Hi. specialize (H1 (Datatypes.S i) c' st' ltac:(cbn [length]; lia)). cbn [firstn nth] in H1. change (list_sum (x :: firstn i ds)) with (x + list_sum (firstn i ds))%nat in H1.
      rewrite Nat.add_assoc in H1. replace (s + Datatypes.S i)%nat with (Datatypes.S s + i)%nat in H1 by lia. exact H1.
    + intros i c' Hi. specialize (H2 (Datatypes.S i) c' ltac:(cbn [length]; lia)). cbn [nth] in H2. replace (s + Datatypes.S i)%nat with (Datatypes.S s + i)%nat in H2 by lia. exact H2.
Qed.

Lemma slice_get A i j a k : wf_mat A -> (j <= nrows A)%nat -> (a < j - i)%nat -> get (slice_rows A i j) a k = get A (i + a) k.
Proof.
  intros W Hj Ha. unfold get, col, slice_rows. cbn [cols]. destruct (Nat.lt_ge_cases k (length (cols A))) as [Hk|Hk].
  - rewrite (nth_map (fun c => firstn (j - i) (skipn i c)) (cols A) k []) by auto. unfold vget. rewrite nth_firstn by auto. apply nth_skipn.
  - rewrite !nth_overflow by (rewrite ?map_length; auto). unfold vget. rewrite !nth_overflow by (cbn; lia). reflexivity.
Qed.

(** ** The tables after the first page *)
Lemma add_output_first outs : forall P n d P', add_output_higher P outs n d 1 = Ok P' ->
  (forall i h im pre, nth_error outs i = Some (h, im, pre) ->
     tget (h_hom P') 1 (n + i) d = Ok h /\ tget (h_im P') 1 (n + i) d = Ok (Some im) /\ tget (h_dim P') 2 (n + i) d = Ok (b_dim h)) /\
  (forall n' d', d' <> d \/ (n' < n)%nat \/ (n + length outs <= n')%nat ->
     tget (h_hom P') 1 n' d' = tget (h_hom P) 1 n' d' /\ tget (h_im P') 1 n' d' = tget (h_im P) 1 n' d' /\ tget (h_dim P') 2 n' d' = tget (h_dim P) 2 n' d') /\
  h_reps P' = h_reps P.
Proof.
  induction outs as [|[[h im] pre] outs IH]; intros P n d P' E; cbn [add_output_higher] in E.
  { injection E as <-. split; [intros [|i]; discriminate|]. auto. }
  destruct (tset (h_preim P) 1 n d pre) as [a|] eqn:E1; [|discriminate]. cbn [bind] in E.
  destruct (tset (h_hom P) 1 n d h) as [b|] eqn:E2; [|discriminate]. cbn [bind] in E.
  destruct (tset (h_dim P) (1 + 1) n d (b_dim h)) as [c|] eqn:E3; [|discriminate]. cbn [bind] in E.
  destruct (tset (h_im P) 1 n d (Some im)) as [e|] eqn:E4; [|discriminate]. cbn [bind] in E.
  rewrite Nat.sub_diag, Nat.sub_0_r in E. destruct (IH _ _ _ _ E) as (I1 & I2 & I3). cbn [h_hom h_im h_dim h_reps] in *.
  split; [|split; [|exact I3]].
  - intros [|i] h' im' pre' Hi; cbn [nth_error] in Hi.
    + injection Hi as -> -> ->. rewrite Nat.add_0_r. destruct (I2 n d) as (J1 & J2 & J3); [right; left; lia|]. rewrite J1, J2, J3.
      rewrite (tget_tset _ _ _ _ _ _ E2), (tget_tset _ _ _ _ _ _ E4), (tget_tset _ _ _ _ _ _ E3), !Nat.eqb_refl. auto.
    + replace (n + Datatypes.S i)%nat with (n + 1 + i)%nat by lia. eapply I1. eauto.
  - intros n' d' Hne. destruct (I2 n' d') as (J1 & J2 & J3); [cbn [length] in Hne; lia|]. rewrite J1, J2, J3.
    rewrite (tget_tset _ _ _ _ _ _ E2), (tget_tset _ _ _ _ _ _ E4), (tget_tset _ _ _ _ _ _ E3).
    assert (Nat.eqb n' n && Nat.eqb d' d = false) as X.
    { destruct (Nat.eqb_spec n' n) as [->|]; [|reflexivity]. destruct (Nat.eqb_spec d' d) as [->|]; [|reflexivity]. cbn [length] in Hne. lia. }
    rewrite <- !andb_assoc, X, !andb_false_r. auto.
Qed.

Lemma set_reps_get P k n d x P' : set_reps P k n d x = Ok P' -> forall k' n' d', tget (h_reps P') k' n' d' = if Nat.eqb k' k && Nat.eqb n' n && Nat.eqb d' d then Ok x else tget (h_reps P) k' n' d'.
Proof. unfold set_reps. destruct (tset (h_reps P) k n d x) eqn:E; [|discriminate]. cbn [bind]. intros X. injection X as <-. cbn [h_reps]. apply (tget_tset _ _ _ _ _ _ E). Qed.

Lemma foldM_app {X St} (f : St -> X -> res St) l1 : forall l2 s, foldM f (l1 ++ l2) s = bind (foldM f l1 s) (fun s' => foldM f l2 s').
Proof. induction l1 as [|x l1 IH]; intros l2 s; cbn [app foldM bind]; [reflexivity|]. destruct (f s x); cbn [bind]; auto. Qed.

(** The list of chains found for a position: the combination of local cycles and its lift. *)
Definition two_page_reps (S : ss) (h : basis) (n d : nat) (rc : list chains) : Prop :=
  exists cyc rep, cycle_dims S n d = Ok cyc /\ localize S n d (b_coords h) (seq 0 (b_dim h)) (removelast cyc) = Ok rep /\
  match n with
  | O => rc = [rep]
  | Datatypes.S n' => exists R B lift, birth_radii h = Ok R /\ cech_diff_and_lift S n' d rep R = Ok (B, lift) /\ many B = false /\ rc = [rep; lift]
  end.

Lemma two_page_get S P n d P' h : tget (h_hom P) 1 n d = Ok h -> (0 < b_dim h)%nat -> compute_two_page_representatives S P n d = Ok P' ->
  exists rc, two_page_reps S h n d rc /\ set_reps P 1 n d rc = Ok P'.
Proof.
  intros Eh Hpos E. unfold compute_two_page_representatives in E. rewrite Eh in E. cbn [bind] in E. destruct (Nat.eqb_spec (b_dim h) 0) as [X|_]; [lia|].
  destruct (cycle_dims S n d) as [cyc|] eqn:E1; [|discriminate]. cbn [bind] in E. destruct (localize _ _ _ _ _ _) as [rep|] eqn:E2; [|discriminate]. cbn [bind] in E.
  destruct n as [|n'].
  - cbn [bind] in E. exists [rep]. split; [|exact E]. exists cyc, rep. auto.
  - destruct (birth_radii h) as [R|] eqn:E3; [|discriminate]. cbn [bind] in E. destruct (cech_diff_and_lift S n' d rep R) as [[B lift]|] eqn:E4; [|discriminate]. cbn [bind] in E.
    destruct (many B) eqn:E5; [discriminate|]. cbn [bind] in E. exists [rep; lift]. split; [|exact E]. exists cyc, rep. split; [auto|]. split; [auto|]. exists R, B, lift. auto.
Qed.

(** The end of the body of the loop on the first page. *)
Lemma reps_fold S d (H : nat -> basis) N P1 P' : (forall k, (k < N)%nat -> tget (h_hom P1) 1 k d = Ok (H k)) ->
  foldM (fun (P : pages) (n : nat) => h <- tget (h_hom P) 1 n d ;; (if Nat.ltb 0 (b_dim h) then compute_two_page_representatives S P n d else Ok P)) (seq 0 N) P1 = Ok P' ->
  h_hom P' = h_hom P1 /\ h_im P' = h_im P1 /\ h_dim P' = h_dim P1 /\
  (forall n, (n < N)%nat -> (0 < b_dim (H n))%nat -> exists rc, tget (h_reps P') 1 n d = Ok rc /\ two_page_reps S (H n) n d rc) /\
  (forall n d', d' <> d \/ (N <= n)%nat \/ b_dim (H n) = 0%nat -> tget (h_reps P') 1 n d' = tget (h_reps P1) 1 n d').
Proof.
  intros HH. revert P'. induction N as [|N IH]; intros P' E.
  - cbn in E. injection E as <-. repeat split; auto. intros; lia.
  - rewrite seq_S, foldM_app in E. cbn [Nat.add] in E. destruct (foldM _ (seq 0 N) P1) as [Q|] eqn:EQ; [|discriminate]. cbn [bind foldM] in E.
    destruct (IH ltac:(intros; apply HH; lia) Q eq_refl) as (I1 & I2 & I3 & I4 & I5). rewrite I1, HH in E by lia. cbn [bind] in E.
    destruct (Nat.ltb_spec 0 (b_dim (H N))) as [Hpos|Hz].
    + destruct (compute_two_page_representatives S Q N d) as [Q'|] eqn:EC; [|discriminate]. cbn [bind] in E. injection E as ->.
      destruct (two_page_get S Q N d P' (H N) ltac:(rewrite I1; apply HH; lia) Hpos EC) as (rc & R1 & R2).
      pose proof (set_reps_get _ _ _ _ _ _ R2) as R3. apply set_reps_hom in R2. destruct R2 as (-> & -> & _ & ->). repeat split; auto.
      * intros n Hn Hp. rewrite R3, !Nat.eqb_refl. cbn [andb]. destruct (Nat.eqb_spec n N) as [->|]; cbn [andb]; [exists rc; auto|]. apply I4; auto. lia.
      * intros n d' Hn. rewrite R3, Nat.eqb_refl. cbn [andb]. destruct (Nat.eqb_spec n N) as [->|].
        -- destruct (Nat.eqb_spec d' d) as [->|]; cbn [andb]; [lia|]. apply I5. auto.
        -- cbn [andb]. apply I5. lia.
    + cbn [bind] in E. injection E as ->. repeat split; auto.
      * intros n Hn Hp. apply I4; auto. destruct (Nat.eq_dec n N) as [->|]; lia.
      * intros n d' Hn. apply I5. destruct (Nat.eq_dec n N) as [->|]; lia.
Qed.

Section Gens.
Variables (argsort : list Z -> list nat) (rnd : Z -> Z) (Dist : list (list Z)) (max_r max_dim p : Z)
  (IN : list (list (list nat))) (n0 : nat) (nerve : list (list simplex)).
Hypothesis HI : mv_input argsort Dist max_r max_dim p IN n0 nerve.
Variable S : ss.
Hypothesis PO : page_ok argsort rnd Dist max_r max_dim p IN n0 nerve S.
Let m := Z.to_nat max_dim.
Let Hp := mv_prime _ _ _ _ _ _ _ _ HI.
Let lev n := level n0 nerve n.
Let L := length nerve.
Let p_pos : 0 < p. Proof. destruct Hp. lia. Qed.
Let iff0 a : a mod p = 0 <-> cong p a 0. Proof. apply mod_cong_0. exact p_pos. Qed.
Local Notation G := (simplices IN S).
Local Notation widths := (sizes IN n0 nerve S).

Lemma loc_shape n k d : (n < L)%nat -> (k < length (lev n))%nat -> (d < m)%nat ->
  length (cols (b_coords (hom_of S n k d))) = length (b_bars (hom_of S n k d)) /\
  (b_bars (hom_of S n k d) <> [] -> nrows (b_coords (hom_of S n k d)) = length (G n k d)) /\
  wf_mat (b_coords (hom_of S n k d)).
Proof.
  intros Hn Hk Hd. destruct (loc_ok _ _ _ _ _ _ _ _ _ S PO n k Hn Hk) as [Rs OK].
  pose proof (lo_valid _ _ _ _ _ _ _ _ OK) as VC. pose proof (lo_ph _ _ _ _ _ _ _ _ OK) as PH. pose proof (lo_Ds _ _ _ _ _ _ _ _ OK) as LD.
  assert (Hdd : (d <= length (l_Ds (loc_of S n k)))%nat) by (rewrite LD; fold m; lia).
  destruct (bases_shape rnd p max_r _ _ Rs _ Hp VC PH d Hdd) as (_ & A2 & _ & A4 & _ & A6 & _ & A8).
  change (nth d (ph_hom (l_out (loc_of S n k))) empty_basis) with (hom_of S n k d) in *.
  rewrite (csize_G _ _ _ _ _ _ _ n k Rs OK d) in *.
  assert (X : b_bars (hom_of S n k d) <> [] -> nrows (b_coords (hom_of S n k d)) = length (G n k d)).
  { intros Hne; apply A6; rewrite <- A4; destruct (b_bars (hom_of S n k d)); [congruence|discriminate]. }
  split; [unfold vec in *; lia|]. split; [exact X|].
  unfold wf_mat. destruct (b_bars (hom_of S n k d)) eqn:E.
  - cbn [length] in A4. assert (Y : cols (b_coords (hom_of S n k d)) = []) by (apply length_zero_iff_nil; unfold vec in *; lia). rewrite Y. constructor.
  - rewrite X by discriminate. auto.
Qed.

Lemma before_start n d k : (n < L)%nat -> (d < m)%nat -> (k <= length (lev n))%nat -> list_sum (firstn k (dims n0 nerve S n d)) = start (famlen S d n) k.
Proof. intros Hn Hd Hk. apply (before_classes _ _ _ _ _ _ _ _ _ HI S PO n d k Hn); [unfold m in Hd; lia|exact Hk]. Qed.

(** [localize] gives the combinations of the local representatives whose coefficients are the columns of the matrix. *)
Lemma localize_ok n d C ref c : (n < L)%nat -> (d < m)%nat -> wf_mat C -> nrows C = length (row_bars n0 nerve S d n) -> increasing ref ->
  localize S n d C ref (cumulate 0 (dims n0 nerve S n d)) = Ok c ->
  good (widths n d) c /\ (forall k g, In g (le_ref (nth k c e0)) -> In g ref) /\
  forall k g j, (k < length (lev n))%nat -> (g < length ref)%nat -> value c k (nth g ref 0%nat) j = fam_comb n0 nerve S d n (Spec_IK.column C g) (k, j).
Proof.
  intros Hn Hd WC HC Href E. unfold localize in E. rewrite (spx_ok _ _ _ _ _ _ _ _ _ _ PO n) in E by (unfold L in Hn; lia). cbn [bind] in E. rewrite cumulate_length in E.
  match type of E with bind ?x _ = _ => destruct x as [st|] eqn:EF; [|discriminate] end. destruct st as [c' x]. cbn [bind] in E. injection E as <-.
  set (ds := dims n0 nerve S n d) in *. assert (Lds : length ds = length (lev n)) by apply dims_length.
  assert (Hds : forall k, (k < length (lev n))%nat -> nth k ds 0%nat = length (b_bars (hom_of S n k d)) /\ hom0 (loc_of S n k) d = Ok (hom_of S n k d)).
  { intros k Hk. destruct (hom0_of _ _ _ _ _ _ _ _ _ HI S PO n k d Hn Hk ltac:(unfold m in Hd; lia)) as [E1 E2]. unfold ds. rewrite dims_nth by auto. auto. }
  set (Q := fun i (cc : chains) => length cc = length (lev n) /\ (forall k, (i <= k)%nat -> nth k cc e0 = e0) /\
    forall k, (k < i)%nat -> (k < length (lev n))%nat -> good_entry (length (G n k d)) (nth k cc e0) /\ (forall g, In g (le_ref (nth k cc e0)) -> In g ref) /\
      forall g j, (g < length ref)%nat -> at_entry (nth k cc e0) (nth g ref 0%nat) j = fam_comb n0 nerve S d n (Spec_IK.column C g) (k, j)).
  assert (HQ : Q (0 + length ds)%nat (fst (c', x))).
  { refine (window_fold _ Q ds 0 0 _ _ _ _ _ _ EF).
    - intros c prev kn Hl. rewrite Hl. reflexivity.
    - intros i c st' Hi (Q1 & Q2 & Q3) Hpos Es. rewrite !Nat.add_0_l in *. cbn [fst snd] in Es.
      rewrite Lds in Hi. destruct (Hds i Hi) as [D1 D2].
      destruct (Nat.ltb_spec (list_sum (firstn i ds)) (list_sum (firstn i ds) + nth i ds 0)%nat) as [_|X]; [|lia].
      rewrite (the_local_ok _ _ _ _ _ _ _ _ _ S PO n i Hn Hi) in Es. cbn [bind] in Es. rewrite D2 in Es. cbn [bind] in Es.
      destruct (loc_shape n i d Hn Hi Hd) as (S1 & S2 & S3).
      assert (Hne : b_bars (hom_of S n i d) <> []) by (intros X; rewrite X in D1; cbn in D1; lia). specialize (S2 Hne).
      assert (Hend : (list_sum (firstn i ds) + nth i ds 0 <= nrows C)%nat).
      { rewrite HC, row_bars_length. unfold ds at 1. rewrite before_start by (auto; lia). rewrite D1. change (length (b_bars (hom_of S n i d))) with (famlen S d n i). apply start_end. exact Hi. }
      unfold matmul in Es. destruct (Nat.eqb_spec (ncols (b_coords (hom_of S n i d))) (nrows (slice_rows C (list_sum (firstn i ds)) (list_sum (firstn i ds) + nth i ds 0%nat)))) as [EQ|_]; [|discriminate].
      cbn [bind] in Es. set (W := slice_rows C (list_sum (firstn i ds)) (list_sum (firstn i ds) + nth i ds 0%nat)) in *.
      set (PP := mmul (b_coords (hom_of S n i d)) W) in *.
      assert (LP : nrows PP = length (G n i d)) by exact S2.
      destruct (Nat.eq_dec (length ref) (length (cols PP))) as [Er|Er].
      2:{ rewrite (proj1 (add_entry_ok c i ref (LMat (nrows PP) (cols PP)) ltac:(lia)) Er) in Es. discriminate. }
      destruct (proj2 (add_entry_ok c i ref (LMat (nrows PP) (cols PP)) ltac:(lia)) Er) as (c1 & E1 & L1 & O1 & N1 & _). rewrite E1 in Es. cbn [bind] in Es. injection Es as <-. cbn [fst snd].
      split; [reflexivity|]. specialize (N1 ltac:(discriminate)). split; [lia|]. split; [intros k Hk; rewrite O1 by lia; apply Q2; lia|].
      intros k Hk Hkl. destruct (Nat.eq_dec k i) as [->|Hki]; [|rewrite O1 by auto; apply Q3; lia]. rewrite N1. cbn [le_ref].
      split; [|split; [auto|]].
      + split; [exact Href|]. cbn [le_coord le_ref]. rewrite LP. split; [reflexivity|]. split; [auto|]. apply Forall_forall. intros v Hv. unfold PP, mmul in Hv. cbn [cols] in Hv. apply in_map_iff in Hv. destruct Hv as (u & <- & _).
        rewrite mvmul_length. exact S2.
      + intros g j Hg. unfold at_entry. cbn [le_ref le_coord lrows]. rewrite find_idx_nth by (auto; apply increasing_NoDup; auto).
        assert (Ec := comb_part _ _ _ _ _ _ _ _ HI S d Hd n i (Spec_IK.column C g) j Hi). unfold part in Ec. unfold fam_comb. rewrite Ec. clear Ec.
        destruct (Nat.lt_ge_cases j (length (G n i d))) as [Hj|Hj].
        * unfold PP, mmul. cbn [cols]. unfold PP, mmul in Er. cbn [cols] in Er. rewrite map_length in Er.
          rewrite (@nth_map vec vec (mvmul (b_coords (hom_of S n i d))) (cols W) g []) by lia. rewrite vget_mvmul by lia.
          unfold ncols. rewrite S1. apply Zsum_ext. intros a Ha. rewrite Z.mul_comm. f_equal. change (vget (nth g (cols W) []) a) with (get W a g). unfold W.
          rewrite slice_get; [|exact WC|exact Hend|rewrite D1; unfold famlen in Ha; lia]. unfold Spec_IK.column. rewrite <- before_start by (auto; lia). reflexivity.
        * transitivity 0; [|symmetry; apply Zsum_0; intros a _; rewrite (get_out _ j a S3) by (left; lia); ring].
          destruct (Nat.lt_ge_cases g (length (cols PP))) as [Hgl|Hgl]; [|rewrite (nth_overflow (cols PP)) by auto; destruct j; reflexivity].
          unfold PP, mmul. cbn [cols]. unfold PP, mmul in Hgl. cbn [cols] in Hgl. rewrite map_length in Hgl.
          rewrite (@nth_map vec vec (mvmul (b_coords (hom_of S n i d))) (cols W) g []) by lia. apply nth_overflow. rewrite mvmul_length. lia.
    - intros i c Hi Hz (Q1 & Q2 & Q3). rewrite !Nat.add_0_l in *. split; [exact Q1|]. split; [intros k Hk; apply Q2; lia|].
      intros k Hk Hkl. destruct (Nat.eq_dec k i) as [->|Hki]; [|apply Q3; lia]. rewrite Q2 by lia. cbn [le_ref]. split; [split; [constructor|reflexivity]|]. split; [intros g []|].
      intros g j Hg. assert (Ec := comb_part _ _ _ _ _ _ _ _ HI S d Hd n i (Spec_IK.column C g) j Hkl). unfold part in Ec. unfold fam_comb. rewrite Ec.
      unfold famlen at 1. rewrite <- (proj1 (Hds i Hkl)), Hz. reflexivity.
    - split; [unfold empty_chains; rewrite repeat_length; reflexivity|]. split; [|intros; lia]. intros k _. apply nth_repeat. }
  cbn [fst] in HQ. rewrite Lds in HQ. cbn [Nat.add] in HQ. destruct HQ as (Q1 & Q2 & Q3). split; [|split].
  - apply good_intro; unfold sizes; rewrite map_length, seq_length; [exact Q1|]. intros k Hk. rewrite nth_map_seq by auto. apply Q3; auto.
  - intros k g Hg. destruct (Nat.lt_ge_cases k (length (lev n))) as [Hk|Hk]; [apply (Q3 k Hk Hk); exact Hg|]. rewrite Q2 in Hg by auto. destruct Hg.
  - intros k g j Hk Hg. apply Q3; auto.
Qed.
(** ** The classes found on the first page *)
Lemma many_zero A : many A = false -> forall i j, get A i j = 0.
Proof.
  intros H i j. unfold get, col. destruct (Nat.lt_ge_cases j (length (cols A))) as [Hj|Hj].
  2:{ rewrite (nth_overflow _ _ Hj). unfold vget. destruct i; reflexivity. }
  unfold many in H. destruct (Z.eq_dec (vget (nth j (cols A) []) i) 0) as [E|E]; [exact E|exfalso].
  assert (X : existsb vany (cols A) = true); [|congruence]. apply existsb_exists. exists (nth j (cols A) []). split; [apply nth_In; exact Hj|].
  unfold vany. apply existsb_exists. exists (vget (nth j (cols A) []) i). split.
  - unfold vget. apply nth_In. destruct (Nat.lt_ge_cases i (length (nth j (cols A) []))) as [X'|X']; [exact X'|]. exfalso. apply E. unfold vget. apply nth_overflow. exact X'.
  - apply Bool.negb_true_iff. apply Z.eqb_neq. exact E.
Qed.

Lemma page2_bounds_sub d n r : (d < m)%nat -> Spec_Bars.subspace p (page2_bounds p Dist IN n0 nerve S d n r).
Proof.
  intros Hd M c b v Hb Hv. split; [apply (fam_cycle_sub argsort Dist max_r max_dim p IN n0 nerve HI S d n r M c b); auto; intros t Ht; apply (Hb t Ht)|].
  assert (Hw : forall t, (t < M)%nat -> exists w, fam_cycle p Dist IN n0 nerve S d (Datatypes.S n) r w /\ fam_bounds p Dist IN n0 nerve S d n r (fun x => b t x - fam_cech IN n0 nerve S d n w x))
    by (intros t Ht; apply (Hb t Ht)).
  destruct (choose_fun _ _ _ _ _ _ _ _ HI S (fun _ : nat * nat => 0) M _ Hw) as (w & Hw').
  exists (fun x => Zsum M (fun t => c t * w t x)). split.
  - apply (fam_cycle_sub argsort Dist max_r max_dim p IN n0 nerve HI S d (Datatypes.S n) r M c w); [intros t Ht; apply (Hw' t Ht)|]. intros; reflexivity.
  - apply (fam_bounds_sub argsort Dist max_r max_dim p IN n0 nerve HI S d n r M c (fun t x => b t x - fam_cech IN n0 nerve S d n (w t) x)); [intros t Ht; apply (Hw' t Ht)|].
    intros x. apply (cong_mod_iff p _ _ p_pos). rewrite (proj1 (cong_mod_iff p _ _ p_pos) (Hv x)).
    rewrite (fc_lin _ _ _ _ _ _ _ _ HI S d Hd n M c w _ (fun y => cong_eq p _ _ eq_refl) x). apply cong_eq. rewrite <- Zsum_sub. apply Zsum_ext. intros; ring.
Qed.

Record gens (d n : nat) (H I : basis) (reps : list chains) : Prop := {
  ge_wb : weak_basis p (page2_cycle p Dist IN n0 nerve S d n) (page2_bounds p Dist IN n0 nerve S d n) max_r (b_bars H)
            (fun k => fam_comb n0 nerve S d n (Spec_IK.column (b_coords H) k));
  ge_pb : n = 0%nat \/ row_bars n0 nerve S d (Datatypes.S n) = [] ->
            persistent_basis p (page2_cycle p Dist IN n0 nerve S d n) (page2_bounds p Dist IN n0 nerve S d n) max_r (b_bars H)
              (fun k => fam_comb n0 nerve S d n (Spec_IK.column (b_coords H) k));
  ge_dim : b_dim H = length (b_bars H);
  ge_over : (0 < b_dim H)%nat -> over H (row_base n0 nerve S d n);
  ge_sup : forall k i, (k < b_dim H)%nat -> (i < length (row_bars n0 nerve S d n))%nat -> get (b_coords H) i k mod p <> 0 ->
             fst (nth i (row_bars n0 nerve S d n) (0, 0)) <= fst (nth k (b_bars H) (0, 0));
  ge_im0 : row_bars n0 nerve S d (Datatypes.S n) = [] -> b_dim I = 0%nat;
  ge_im : (0 < b_dim I)%nat -> b_dim I = length (b_bars I) /\ ncols (b_coords I) = b_dim I /\ nrows (b_coords I) = length (row_bars n0 nerve S d n) /\ wf_mat (b_coords I) /\
    (forall i k, (i < length (row_bars n0 nerve S d n))%nat -> (k < b_dim I)%nat -> get (b_coords I) i k mod p <> 0 ->
       fst (nth i (row_bars n0 nerve S d n) (0, 0)) <= fst (nth k (b_bars I) (0, 0))) /\
    (forall r c, r < max_r -> (forall k, c k <> 0 -> (k < b_dim I)%nat /\ fst (nth k (b_bars I) (0, 0)) <= r) ->
       page2_bounds p Dist IN n0 nerve S d n r (fam_comb n0 nerve S d n (mapply (b_coords I) c)));
  ge_none : b_dim H = 0%nat -> reps = [];
  ge_reps : (0 < b_dim H)%nat -> exists rep rest, reps = rep :: rest /\ good (widths n d) rep /\ (forall k g, In g (le_ref (nth k rep e0)) -> (g < b_dim H)%nat) /\
    (forall k g j, (k < length (lev n))%nat -> (g < b_dim H)%nat -> value rep k g j = fam_comb n0 nerve S d n (Spec_IK.column (b_coords H) g) (k, j)) /\
    match n with
    | O => rest = []
    | Datatypes.S n' => exists lift, rest = [lift] /\ good (widths n' (Datatypes.S d)) lift /\ (forall k g, In g (le_ref (nth k lift e0)) -> (g < b_dim H)%nat) /\
        forall k g, (k < length (lev n'))%nat -> (g < b_dim H)%nat ->
          local_chain p Dist IN S n' (Datatypes.S d) k (bbirth (b_bars H) g) (value lift k g) /\
          (b_bars (hom_of S n' k d) <> [] -> forall j, cong p (cech_image n0 nerve IN S n' d k (fun s => value rep s g) j + local_bd IN S n' d k (value lift k g) j) 0) /\
          (b_bars (hom_of S n' k d) = [] -> nth k lift e0 = e0)
    end
}.

Hypothesis HN : pure_nerve n0 nerve.

Lemma gens_reps d n H rc : (n < L)%nat -> (d < m)%nat -> (0 < b_dim H)%nat ->
  weak_basis p (page2_cycle p Dist IN n0 nerve S d n) (page2_bounds p Dist IN n0 nerve S d n) max_r (b_bars H) (fun k => fam_comb n0 nerve S d n (Spec_IK.column (b_coords H) k)) ->
  b_dim H = length (b_bars H) -> over H (row_base n0 nerve S d n) ->
  (match n with O => True | Datatypes.S n' => classes n0 nerve S n d <> 0%nat -> classes n0 nerve S n' d <> 0%nat end) ->
  two_page_reps S H n d rc ->
  exists rep rest, rc = rep :: rest /\ good (widths n d) rep /\ (forall k g, In g (le_ref (nth k rep e0)) -> (g < b_dim H)%nat) /\
    (forall k g j, (k < length (lev n))%nat -> (g < b_dim H)%nat -> value rep k g j = fam_comb n0 nerve S d n (Spec_IK.column (b_coords H) g) (k, j)) /\
    match n with
    | O => rest = []
    | Datatypes.S n' => exists lift, rest = [lift] /\ good (widths n' (Datatypes.S d)) lift /\ (forall k g, In g (le_ref (nth k lift e0)) -> (g < b_dim H)%nat) /\
        forall k g, (k < length (lev n'))%nat -> (g < b_dim H)%nat ->
          local_chain p Dist IN S n' (Datatypes.S d) k (bbirth (b_bars H) g) (value lift k g) /\
          (b_bars (hom_of S n' k d) <> [] -> forall j, cong p (cech_image n0 nerve IN S n' d k (fun s => value rep s g) j + local_bd IN S n' d k (value lift k g) j) 0) /\
          (b_bars (hom_of S n' k d) = [] -> nth k lift e0 = e0)
    end.
Proof.
  intros Hn Hd Hpos PB Hdim Ho Hcl (cyc & rep & Ecyc & Eloc & Hrest).
  destruct Ho as (Hbo & _ & _ & _ & Hnr & Hnc & Hwf). cbn [row_base b_dim] in Hnr.
  pose proof PB as PB0. destruct PB as (PB1 & PB2 & PB3).
  assert (Hbirth : forall g, (g < b_dim H)%nat -> bbirth (b_bars H) g < bdeath (b_bars H) g /\ bbirth (b_bars H) g < max_r).
  { intros g Hg. pose proof (PB1 (nth g (b_bars H) (0, 0)) (nth_In _ _ ltac:(rewrite <- Hdim; exact Hg))). unfold bbirth, bdeath. lia. }
  assert (Hcyc : forall g, (g < b_dim H)%nat -> page2_cycle p Dist IN n0 nerve S d n (bbirth (b_bars H) g) (fam_comb n0 nerve S d n (Spec_IK.column (b_coords H) g))).
  { intros g Hg. destruct (Hbirth g Hg) as [X1 X2]. destruct (PB2 _ X2) as (Q & _). apply (Q g); [lia|]. lia. }
  assert (Hrb : (0 < length (row_bars n0 nerve S d n))%nat).
  { destruct (Nat.eq_dec (length (row_bars n0 nerve S d n)) 0) as [Hz|]; [exfalso|lia].
    destruct (Hbirth 0%nat Hpos) as [X1 X2].
    pose proof (row_zero _ _ _ _ _ _ _ _ _ HI S PO HN d Hd n _ _ Hz X2 (proj1 (Hcyc 0%nat Hpos))) as RZ.
    destruct (PB2 _ X2) as (_ & _ & Q). specialize (Q (fun k => if Nat.eqb k 0 then 1 else 0)).
    assert (Y : 1 mod p = 0); [|rewrite Z.mod_1_l in Y by (destruct Hp; lia); lia].
    refine (Q _ _ 0%nat ltac:(lia)).
    - intros k Hk. destruct (Nat.eqb_spec k 0) as [->|]; [lia|reflexivity].
    - refine (sub_ext p _ _ _ (page2_bounds_sub d n _ Hd) _ RZ). intros x. rewrite (Zsum_single _ 0%nat); [cbn [Nat.eqb]; ring|lia|].
      intros i Hi Hne. destruct (Nat.eqb_spec i 0) as [->|]; [congruence|ring]. }
  assert (Hlev : lev n <> []).
  { intros X. rewrite rb_len in Hrb. unfold classes in Hrb. fold (lev n) in Hrb. rewrite X in Hrb. cbn in Hrb. lia. }
  destruct (cyc_ok _ _ _ _ _ _ _ _ _ HI S PO n d Hn Hlev Hd) as [Ec _]. rewrite Ec in Ecyc. injection Ecyc as <-. rewrite removelast_last in Eloc.
  destruct (localize_ok n d _ _ _ Hn Hd Hwf Hnr (seq_sorted (b_dim H) 0) Eloc) as (G1 & G2 & G3).
  assert (V : forall k g j, (k < length (lev n))%nat -> (g < b_dim H)%nat -> value rep k g j = fam_comb n0 nerve S d n (Spec_IK.column (b_coords H) g) (k, j)).
  { intros k g j Hk Hg. pose proof (G3 k g j Hk ltac:(rewrite seq_length; exact Hg)) as X. rewrite seq_nth in X by exact Hg. exact X. }
  assert (R1 : forall k g, In g (le_ref (nth k rep e0)) -> (g < b_dim H)%nat) by (intros k g X; apply G2 in X; apply in_seq in X; lia).
  destruct n as [|n'].
  { subst rc. exists rep, []. auto. }
  destruct Hrest as (R & B & lift & ER & EL & EB & ->). exists rep, [lift].
  split; [reflexivity|]. split; [exact G1|]. split; [exact R1|]. split; [exact V|]. exists lift. split; [reflexivity|].
  destruct Hbo as (Hfl & _). unfold birth_radii in ER. rewrite Hfl in ER. injection ER as <-.
  assert (LR : length (map fst (b_bars H)) = b_dim H) by (rewrite map_length; auto).
  assert (NR : forall g, (g < b_dim H)%nat -> nth g (map fst (b_bars H)) 0 = bbirth (b_bars H) g).
  { intros g Hg. unfold bbirth. change 0 with (fst (0, 0)) at 1. apply map_nth. }
  assert (Hcof : has_cofaces n0 nerve n').
  { destruct (proj1 HN n' Hn) as [X|X]; [|exact X]. exfalso. apply Hlev. exact X. }
  rewrite rb_len in Hrb. specialize (Hcl ltac:(lia)).
  assert (Hlev' : lev n' <> []).
  { intros X. apply Hcl. unfold classes. fold (lev n'). rewrite X. reflexivity. }
  destruct (cech_diff_and_lift_ok _ _ _ _ _ _ _ _ _ HI S PO n' d rep (map fst (b_bars H)) Hn Hd Hcof G1) as (c & B' & lift' & Ec' & El & K1 & K2 & K3 & K4 & K5 & K6 & K7).
  - intros s g X. rewrite LR. eauto.
  - intros g X. rewrite LR in X. rewrite NR by exact X. apply Hbirth. exact X.
  - intros s g Hs X. rewrite LR in X. rewrite NR by exact X. fold (lev (Datatypes.S n')) in Hs.
    destruct (proj1 (Hcyc g X)) as [_ Y]. specialize (Y s Hs).
    refine (local_cycle_cong argsort rnd Dist max_r max_dim p IN n0 nerve HI S (Datatypes.S n') d s _ _ _ _ Y). intros j. apply cong_eq. symmetry. apply V; auto.
  - intros _. exact Hlev'.
  - rewrite El in EL. injection EL as -> ->. split; [exact K5|]. rewrite LR in K6, K7. split; [exact K6|].
    intros k g Hk Hg. destruct (K7 k g Hk Hg) as (_ & J2 & _ & J4 & J5). rewrite NR in J2 by exact Hg. split; [exact J2|]. split; [|exact J5].
    intros Hne j. rewrite <- (cech_value _ _ _ _ _ _ _ _ _ HI S PO n' d rep c k g j Hn ltac:(lia) Hcof G1 Ec' Hk). rewrite (J4 Hne j). rewrite Zsum_0; [reflexivity|].
    intros h Hh. rewrite (many_zero _ EB). ring.
Qed.

Section Deg.
Variable d : nat.
Hypothesis Hd : (d < m)%nat.
Hypothesis Hr : forall x y, local_end n0 nerve S d x -> local_end n0 nerve S d y -> rnd x <= rnd y -> x <= y.

Theorem first_row_gens P P' : (0 < L)%nat -> first_page_row rnd S P d = Ok P' ->
  (forall n, (n < L)%nat -> (n = 0%nat \/ row_bars n0 nerve S d (Datatypes.S n) = []) \/
       (exists b0, (forall x, In x (row_bars n0 nerve S d n) -> fst x = b0) /\ forall x, In x (row_bars n0 nerve S d (Datatypes.S n)) -> fst x = b0) -> tget (h_reps P) 1 n d = Ok [] ->
     exists H I reps, tget (h_hom P') 1 n d = Ok H /\ tget (h_im P') 1 n d = Ok (Some I) /\ tget (h_dim P') 2 n d = Ok (b_dim H) /\
       tget (h_reps P') 1 n d = Ok reps /\ gens d n H I reps) /\
  (forall n d', d' <> d \/ (L <= n)%nat -> tget (h_hom P') 1 n d' = tget (h_hom P) 1 n d' /\ tget (h_im P') 1 n d' = tget (h_im P) 1 n d' /\
     tget (h_dim P') 2 n d' = tget (h_dim P) 2 n d' /\ tget (h_reps P') 1 n d' = tget (h_reps P) 1 n d').
Proof.
  intros HL E. pose proof (first_row_page _ _ _ _ _ _ _ _ _ HI S PO HN d Hd Hr P P' HL E) as FR.
  unfold first_page_row in E. rewrite (po_nerve _ _ _ _ _ _ _ _ _ _ PO) in E. rewrite (row_bases _ _ _ _ _ _ _ _ _ HI S PO HN d Hd Hr) in E. cbn [bind] in E.
  destruct (row_diffs _ _ _ _ _ _ _ _ _ HI S PO HN d Hd Hr) as (D & ED & LD & HD).
  match type of E with bind ?x _ = _ => replace x with (Ok D) in E end. cbn [bind] in E. rewrite (po_p _ _ _ _ _ _ _ _ _ _ PO) in E.
  destruct (row_mph _ _ _ _ _ _ _ _ _ HI S PO HN d Hd Hr D LD HD HL) as (Hom & Im & Pre & EH & L1 & L2 & L3). rewrite EH in E. cbn [bind] in E.
  destruct (add_output_higher P (combine (combine Hom Im) Pre) 0 d 1) as [P1|] eqn:EA; [|discriminate]. cbn [bind] in E.
  destruct (add_output_first _ _ _ _ _ EA) as (A1 & A2 & A3).
  assert (A1' : forall k, (k < L)%nat -> tget (h_hom P1) 1 k d = Ok (nth k Hom empty_basis) /\ tget (h_im P1) 1 k d = Ok (Some (nth k Im empty_basis)) /\ tget (h_dim P1) 2 k d = Ok (b_dim (nth k Hom empty_basis))).
  { intros k Hk. apply (A1 k (nth k Hom empty_basis) (nth k Im empty_basis) (nth k Pre None)). unfold L in Hk.
    rewrite (nth_error_nth' _ (empty_basis, empty_basis, None)) by (rewrite !combine_length; lia). rewrite combine_nth by (rewrite combine_length; lia). rewrite combine_nth by lia. reflexivity. }
  destruct (reps_fold S d (fun k => nth k Hom empty_basis) (length nerve) P1 P') as (I1 & I2 & I3 & I4 & I5); [intros k Hk; apply A1'; exact Hk|exact E|].
  rewrite A3 in I5. rewrite I1, I2, I3. split.
  - intros n Hn Hn0 Hreps. destruct (A1' n Hn) as (T1 & T2 & T3). destruct (FR n Hn) as [Hov _].
    assert (Bpb := row_pb _ _ _ _ _ _ _ _ _ HI S PO HN d Hd Hr D LD HD Hom Im Pre n HL EH Hn Hov).
    assert (B0 : n = 0%nat \/ row_bars n0 nerve S d (Datatypes.S n) = [] -> persistent_basis p (page2_cycle p Dist IN n0 nerve S d n) (page2_bounds p Dist IN n0 nerve S d n) max_r (b_bars (nth n Hom empty_basis))
              (fun k => fam_comb n0 nerve S d n (Spec_IK.column (b_coords (nth n Hom empty_basis)) k))) by (intros X; apply Bpb; exact X).
    assert (BB : weak_basis p (page2_cycle p Dist IN n0 nerve S d n) (page2_bounds p Dist IN n0 nerve S d n) max_r (b_bars (nth n Hom empty_basis))
              (fun k => fam_comb n0 nerve S d n (Spec_IK.column (b_coords (nth n Hom empty_basis)) k)) /\
      b_dim (nth n Hom empty_basis) = length (b_bars (nth n Hom empty_basis)) /\
      ((0 < b_dim (nth n Hom empty_basis))%nat -> over (nth n Hom empty_basis) (row_base n0 nerve S d n)) /\
      forall k i, (k < b_dim (nth n Hom empty_basis))%nat -> (i < length (row_bars n0 nerve S d n))%nat -> get (b_coords (nth n Hom empty_basis)) i k mod p <> 0 ->
        fst (nth i (row_bars n0 nerve S d n) (0, 0)) <= fst (nth k (b_bars (nth n Hom empty_basis)) (0, 0))).
    { destruct Hn0 as [X|(b0 & X0 & X1)].
      - destruct (Bpb X) as (Y1 & Y2). split; [|exact Y2]. apply pb_weak; auto. intros r _. apply page2_bounds_sub. exact Hd.
      - apply (row_wb _ _ _ _ _ _ _ _ _ HI S PO HN d Hd Hr D LD HD Hom Im Pre n b0 HL EH Hn Hov X0 X1). }
    destruct BB as (B1 & B2 & B3 & B4). clear Bpb.
    destruct (row_im _ _ _ _ _ _ _ _ _ HI S PO HN d Hd Hr D LD HD Hom Im Pre n HL EH Hn) as (C1 & C2).
    set (H := nth n Hom empty_basis) in *. set (I := nth n Im empty_basis) in *. exists H, I.
    assert (Hcl : match n with O => True | Datatypes.S n' => classes n0 nerve S n d <> 0%nat -> classes n0 nerve S n' d <> 0%nat end).
    { destruct n as [|n']; [exact Logic.I|]. intros X Y. apply Hov. apply (over_iff _ _ _ _ _ _ _ _ _ HI S PO HN d Hd Hr _ Hn). auto. }
    destruct (Nat.eq_dec (b_dim H) 0) as [Hz|Hz].
    + exists []. split; [exact T1|]. split; [exact T2|]. split; [exact T3|]. split; [rewrite I5 by auto; exact Hreps|].
      constructor; auto. lia.
    + destruct (I4 n Hn) as (rc & Erc & Hrc); [fold H; lia|]. exists rc. split; [exact T1|]. split; [exact T2|]. split; [exact T3|]. split; [exact Erc|].
      constructor; auto; [lia|]. intros Hpos. apply (gens_reps d n H rc Hn Hd Hpos B1 B2 (B3 Hpos) Hcl Hrc).
  - intros n d' Hne. destruct (A2 n d') as (T1 & T2 & T3); [rewrite !combine_length, L1, L2, L3; unfold L in Hne; lia|].
    split; [exact T1|]. split; [exact T2|]. split; [exact T3|]. apply I5. unfold L in Hne. lia.
Qed.
End Deg.
End Gens.
