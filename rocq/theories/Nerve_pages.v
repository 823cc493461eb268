(** * The pages from the second on when only row 0 has classes *)
From Coq Require Import QArith.
From Verif Require Import Base ListX SortX Lin Gauss_model Gauss_arith Gauss_col Gauss_solve Gauss_bar Basis_model Basis_props PH_model Simp_model Simp_lists LC_model SS_model
  IK_model IK_post IK_mph Spec_IK Cover_model HP_model HP_table HP_row HP_gens HP_second HP_zero HP_pages.
From Coq Require Import Permutation.
Local Open Scope Z_scope.

(** ** Positions *)
Lemma positions_nth cp : (2 <= cp)%nat -> forall f L n d i, (i < length (positions f L n d cp))%nat ->
  nth i (positions f L n d cp) (0, 0)%nat = ((n + i * cp)%nat, (d - i * (cp - 1))%nat) /\ (n + i * cp < L)%nat /\ (i * (cp - 1) <= d)%nat.
Proof.
  intros Hcp. induction f as [|f IH]; intros L n d i Hi; [cbn in Hi; lia|]. cbn [positions] in *. destruct (Nat.ltb_spec n L) as [Hn|Hn]; [|cbn in Hi; lia].
  destruct i as [|i]; cbn [nth]; [split; [f_equal; lia|lia]|]. cbn [length] in Hi. destruct (Nat.leb_spec (cp - 1) d) as [Hd|Hd]; [|cbn in Hi; lia].
  destruct (IH L (n + cp)%nat (d - (cp - 1))%nat i ltac:(lia)) as (E & A & B). rewrite E. split; [f_equal; nia|]. nia.
Qed.

Lemma positions_len cp : (2 <= cp)%nat -> forall f L n d i, (i < f)%nat -> (n + i * cp < L)%nat -> (i * (cp - 1) <= d)%nat -> (i < length (positions f L n d cp))%nat.
Proof.
  intros Hcp. induction f as [|f IH]; intros L n d i Hf Hn Hd; [lia|]. cbn [positions]. destruct (Nat.ltb_spec n L) as [H|H]; [|nia]. cbn [length].
  destruct i as [|i]; [lia|]. destruct (Nat.leb_spec (cp - 1) d) as [H'|H']; [|nia]. specialize (IH L (n + cp)%nat (d - (cp - 1))%nat i ltac:(lia) ltac:(nia) ltac:(nia)). lia.
Qed.

(** ** What is written *)
Lemma add_output_at cp : (2 <= cp)%nat -> forall outs P n d P', add_output_higher P outs n d cp = Ok P' ->
  (forall i h im pre, nth_error outs i = Some (h, im, pre) ->
     tget (h_hom P') cp (n + i * cp) (d - i * (cp - 1)) = Ok h /\ tget (h_im P') cp (n + i * cp) (d - i * (cp - 1)) = Ok (Some im) /\
     tget (h_dim P') (Datatypes.S cp) (n + i * cp) (d - i * (cp - 1)) = Ok (b_dim h)) /\
  (forall k' n' d', k' <> cp \/ (forall i, (i < length outs)%nat -> (n', d') <> ((n + i * cp)%nat, (d - i * (cp - 1))%nat)) ->
     tget (h_hom P') k' n' d' = tget (h_hom P) k' n' d' /\ tget (h_im P') k' n' d' = tget (h_im P) k' n' d' /\
     tget (h_dim P') (Datatypes.S k') n' d' = tget (h_dim P) (Datatypes.S k') n' d').
Proof.
  intros Hcp. induction outs as [|[[h im] pre] outs IH]; intros P n d P' E; cbn [add_output_higher] in E.
  { injection E as <-. split; [intros i h im pre X; destruct i; discriminate|auto]. }
  destruct (tset (h_preim P) cp n d pre) as [a|] eqn:E1; [|discriminate]. cbn [bind] in E.
  destruct (tset (h_hom P) cp n d h) as [b|] eqn:E2; [|discriminate]. cbn [bind] in E.
  destruct (tset (h_dim P) (1 + cp) n d (b_dim h)) as [c|] eqn:E3; [|discriminate]. cbn [bind] in E.
  destruct (tset (h_im P) cp n d (Some im)) as [e|] eqn:E4; [|discriminate]. cbn [bind] in E.
  destruct (IH _ _ _ _ E) as [I1 I2]. cbn [h_hom h_im h_dim] in I2. split.
  - intros [|i] h' im' pre' Hi; cbn [nth_error] in Hi.
    + injection Hi as <- <- <-. rewrite !Nat.mul_0_l, Nat.add_0_r, Nat.sub_0_r. destruct (I2 cp n d) as (-> & -> & ->); [right; intros i Hi X; injection X as X _; lia|].
      rewrite (tget_tset _ _ _ _ _ _ E2), (tget_tset _ _ _ _ _ _ E3), (tget_tset _ _ _ _ _ _ E4), !Nat.eqb_refl. auto.
    + specialize (I1 i h' im' pre' Hi). replace (n + Datatypes.S i * cp)%nat with (n + cp + i * cp)%nat by lia. replace (d - Datatypes.S i * (cp - 1))%nat with (d - (cp - 1) - i * (cp - 1))%nat by lia. exact I1.
  - intros k' n' d' Hne. destruct (I2 k' n' d') as (-> & -> & ->).
    { destruct Hne as [X|X]; [left; exact X|]. right. intros i Hi. specialize (X (Datatypes.S i) ltac:(cbn [length]; lia)). intros Y. apply X. rewrite Y. f_equal; lia. }
    rewrite (tget_tset _ _ _ _ _ _ E2), (tget_tset _ _ _ _ _ _ E3), (tget_tset _ _ _ _ _ _ E4).
    assert (X : Nat.eqb k' cp && Nat.eqb n' n && Nat.eqb d' d = false).
    { destruct (Nat.eqb_spec k' cp) as [->|]; [|reflexivity]. destruct (Nat.eqb_spec n' n) as [->|]; [|reflexivity]. destruct (Nat.eqb_spec d' d) as [->|]; [|reflexivity].
      exfalso. destruct Hne as [Y|Y]; [congruence|]. apply (Y 0%nat); [cbn; lia|]. f_equal; lia. }
    rewrite X. change (Nat.eqb (Datatypes.S k') (1 + cp)) with (Nat.eqb k' cp). rewrite X. auto.
Qed.

(** ** Row 0 *)
(** No classes in the other rows. *)
Definition calm (P : pages) (k : nat) : Prop :=
  forall n d, (0 < d)%nat -> (forall H, tget (h_hom P) k n d = Ok H -> b_dim H = 0%nat /\ b_bars H = []) /\ (forall x, tget (h_dim P) (Datatypes.S k) n d = Ok x -> x = 0%nat).
Definition row_proper (P : pages) (k : nat) : Prop := forall n H, tget (h_hom P) k n 0 = Ok H -> proper H.

(** One step at a place of row 0: the generators are sorted in the columns before the number of the page, and copied in the others. *)
Definition nst (rnd : Z -> Z) (P : pages) (k n : nat) : Prop :=
  ((n < k)%nat -> stp rnd P k n 0) /\
  ((k <= n)%nat -> exists H H', tget (h_hom P) (k - 1) n 0 = Ok H /\ tget (h_hom P) k n 0 = Ok H' /\ tget (h_dim P) (Datatypes.S k) n 0 = Ok (b_dim H') /\
     (b_dim H = 0%nat -> b_dim H' = 0%nat /\ b_bars H' = []) /\ ((0 < b_dim H)%nat -> H' = H) /\
     ((0 < b_dim H)%nat -> exists R, tget (h_reps P) k n 0 = Ok R /\ R <> [])).

(** The place from which [n, 0] is reached. *)
Definition start_of (cp n : nat) : nat * nat := (n mod cp, (n / cp) * (cp - 1))%nat.

Lemma nst_same rnd P P' k n : (0 < k)%nat -> same_off k P P' -> same_at k n 0 P P' -> nst rnd P k n -> nst rnd P' k n.
Proof.
  intros Hk SB SA [A B]. split; intros Hn; [apply (stp_same rnd P); auto|]. destruct (B Hn) as (H & H' & E1 & E2 & E3 & E4). destruct SA as (A1 & _ & A3 & A4).
  destruct (SB (k - 1)%nat n 0%nat ltac:(lia)) as (B1 & _). exists H, H'. rewrite A1, A3, A4, B1. auto.
Qed.

Lemma calm_off k j P Q : j <> k -> same_off k P Q -> calm P j -> calm Q j.
Proof. intros Hj SB HT n d Hn. destruct (SB j n d Hj) as (-> & _ & _ & ->). apply HT. exact Hn. Qed.
Lemma row_proper_off k j P Q : j <> k -> same_off k P Q -> row_proper P j -> row_proper Q j.
Proof. intros Hj SB HT n H. destruct (SB j n 0%nat Hj) as (-> & _). apply HT. Qed.

Lemma nth_combine3 {A B C} (a : list A) (b : list B) (c : list C) da db dc i : length a = length b -> length b = length c -> (i < length a)%nat ->
  nth_error (combine (combine a b) c) i = Some (nth i a da, nth i b db, nth i c dc).
Proof.
  revert b c i. induction a as [|x a IH]; intros [|y b] [|z c] i H1 H2 Hi; cbn [length] in *; try lia. destruct i as [|i]; [reflexivity|]. cbn [combine nth_error nth]. apply IH; lia.
Qed.

Lemma higher_reps_some rnd S P n d cp P' H : (cp <= n)%nat -> tget (h_hom P) cp n d = Ok H -> (0 < b_dim H)%nat -> compute_higher_representatives rnd S P n d cp = Ok P' ->
  exists R, tget (h_reps P') cp n d = Ok R /\ R <> [].
Proof.
  intros Hn EH Hpos E. unfold compute_higher_representatives in E. rewrite EH in E. cbn [bind] in E. destruct (Nat.eqb_spec (b_dim H) 0) as [Z0|Z0]; [lia|].
  destruct (tget (h_reps P) (cp - 1) n d) as [prev|]; [|discriminate]. cbn [bind] in E. destruct (mapM _ prev) as [total|]; [|discriminate]. cbn [bind] in E. destruct (Nat.ltb_spec n cp); [lia|].
  destruct (foldM _ _ total) as [total'|]; [|discriminate]. cbn [bind] in E. destruct (last_err total') as [lc|]; [|discriminate]. cbn [bind] in E.
  destruct (cech_diff_and_lift _ _ _ _ _) as [[B l]|]; [|discriminate]. cbn [bind] in E. destruct (many B); [discriminate|].
  exists (total' ++ [l]). rewrite (set_reps_get _ _ _ _ _ _ E), !Nat.eqb_refl. cbn [andb]. split; [reflexivity|]. destruct total'; discriminate.
Qed.

Lemma row_step rnd S cp P n d P' : (2 <= cp)%nat -> (n < cp)%nat -> higher_page_row rnd S cp P (n, d) = Ok P' ->
  row_proper P (cp - 1) -> calm P (cp - 1) -> calm P cp -> row_proper P cp ->
  same_off cp P P' /\ calm P' cp /\ row_proper P' cp /\
  (forall n', (n' < length (s_nerve S))%nat -> start_of cp n' = (n, d) -> nst rnd P' cp n') /\
  (forall n', start_of cp n' <> (n, d) -> same_at cp n' 0 P P') /\
  (forall n' d', (length (s_nerve S) <= n')%nat -> same_at cp n' d' P P').
Proof.
  intros Hcp Hn E HF HT1 HT HF2. unfold higher_page_row in E. cbn [fst snd] in E. set (L := length (s_nerve S)) in *. set (pos := positions (1 + L) L n d cp) in *.
  destruct (mapM _ pos) as [base|] eqn:EB; [|discriminate]. cbn [bind] in E. destruct (mapM _ (tl pos)) as [diffs|] eqn:ED; [|discriminate]. cbn [bind] in E.
  destruct (module_persistence_homology _ _ _ _) as [[[Hom Im] Pre]|] eqn:EM; [|discriminate]. cbn [bind] in E.
  destruct (add_output_higher _ _ _ _ _) as [P1|] eqn:EA; [|discriminate]. cbn [bind] in E.
  assert (SR : h_hom P' = h_hom P1 /\ h_im P' = h_im P1 /\ h_dim P' = h_dim P1).
  { refine (foldM_inv _ (fun Q => h_hom Q = h_hom P1 /\ h_im Q = h_im P1 /\ h_dim Q = h_dim P1) _ _ P1 P' (conj eq_refl (conj eq_refl eq_refl)) E).
    intros s x s' _ (A & B & C) Es. apply higher_hom in Es. destruct Es as (-> & -> & _ & ->). auto. }
  destruct SR as (S1 & S2 & S3). pose proof (add_output_reps _ _ _ _ _ _ EA) as S4.
  apply mapM_Ok in EB. destruct EB as [Lb Hb]. pose proof (mph_over_zero _ _ _ _ _ _ _ EM) as (LH & LI & LP & Over). pose proof (mph_zero _ _ _ _ _ _ _ EM) as Zero.
  assert (Pos : forall i, (i < length pos)%nat -> nth i pos (0, 0)%nat = ((n + i * cp)%nat, (d - i * (cp - 1))%nat) /\ (n + i * cp < L)%nat /\ (i * (cp - 1) <= d)%nat) by (intros i; apply positions_nth; exact Hcp).
  assert (Base : forall i, (i < length pos)%nat -> tget (h_hom P) (cp - 1) (n + i * cp) (d - i * (cp - 1)) = Ok (nth i base empty_basis)).
  { intros i Hi. specialize (Hb i (0, 0)%nat empty_basis Hi). cbv beta in Hb. destruct (Pos i Hi) as (E0 & _). rewrite E0 in Hb. exact Hb. }
  set (outs := combine (combine Hom Im) Pre) in *.
  assert (Out : forall i, (i < length pos)%nat -> nth_error outs i = Some (nth i Hom empty_basis, nth i Im empty_basis, nth i Pre None)) by (intros i Hi; apply nth_combine3; lia).
  assert (Lo : length outs = length pos) by (unfold outs; rewrite !combine_length; lia).
  destruct (add_output_at cp Hcp _ _ _ _ _ EA) as [A1 A2]. fold outs in A1. rewrite Lo in A2.
  assert (W : forall i, (i < length pos)%nat -> tget (h_hom P') cp (n + i * cp) (d - i * (cp - 1)) = Ok (nth i Hom empty_basis) /\ tget (h_im P') cp (n + i * cp) (d - i * (cp - 1)) = Ok (Some (nth i Im empty_basis)) /\
     tget (h_dim P') (Datatypes.S cp) (n + i * cp) (d - i * (cp - 1)) = Ok (b_dim (nth i Hom empty_basis))) by (intros i Hi; rewrite S1, S2, S3; apply (A1 i _ _ _ (Out i Hi))).
  assert (U : forall k' n' d', k' <> cp \/ (forall i, (i < length pos)%nat -> (n', d') <> ((n + i * cp)%nat, (d - i * (cp - 1))%nat)) ->
     tget (h_hom P') k' n' d' = tget (h_hom P) k' n' d' /\ tget (h_im P') k' n' d' = tget (h_im P) k' n' d' /\ tget (h_reps P') k' n' d' = tget (h_reps P) k' n' d' /\
     tget (h_dim P') (Datatypes.S k') n' d' = tget (h_dim P) (Datatypes.S k') n' d').
  { intros k' n' d' Hne. rewrite S1, S2, S3. destruct (A2 k' n' d' Hne) as (-> & -> & ->). split; [reflexivity|]. split; [reflexivity|]. split; [|reflexivity].
    rewrite <- S4. refine (foldM_inv _ (fun Q => tget (h_reps Q) k' n' d' = tget (h_reps P1) k' n' d') _ _ P1 P' eq_refl E).
    intros s x s' Hx Hs Es. rewrite (higher_reps_other _ _ _ _ _ _ _ Es); [exact Hs|]. destruct Hne as [Hne|Hne]; [left; exact Hne|]. right.
    apply (In_nth _ _ (0, 0)%nat) in Hx. destruct Hx as (i & Hi & <-). destruct (Pos i Hi) as (E0 & _). rewrite E0. cbn [fst snd]. apply Hne. exact Hi. }
  assert (Zr : forall i, (i < length pos)%nat -> b_dim (nth i base empty_basis) = 0%nat -> b_bars (nth i base empty_basis) = [] -> b_bars (nth i Hom empty_basis) = [] /\ b_dim (nth i Hom empty_basis) = 0%nat).
  { intros i Hi. apply Zero. lia. }
  assert (Pr : forall i, (i < length pos)%nat -> (d - i * (cp - 1) = 0)%nat -> proper (nth i base empty_basis)).
  { intros i Hi H0. pose proof (Base i Hi) as X. rewrite H0 in X. apply (HF _ _ X). }
  (* the place in row 0 *)
  assert (Last : forall i, (i < length pos)%nat -> (d - i * (cp - 1) = 0)%nat ->
    (b_dim (nth i base empty_basis) = 0%nat -> b_dim (nth i Hom empty_basis) = 0%nat /\ b_bars (nth i Hom empty_basis) = []) /\
    ((0 < i)%nat -> (0 < b_dim (nth i base empty_basis))%nat -> nth i Hom empty_basis = nth i base empty_basis)).
  { intros i Hi H0. split.
    - intros Z0. pose proof (Pr i Hi H0) as [Lp _]. rewrite Z0 in Lp. destruct (b_bars (nth i base empty_basis)) eqn:Eb; [|discriminate]. destruct (Zr i Hi Z0 Eb). auto.
    - intros Hi0 Hpos. destruct i as [|i]; [lia|]. apply Over; [lia|exact Hpos|]. pose proof (Base i ltac:(lia)) as X. destruct (Pos (Datatypes.S i) Hi) as (_ & _ & Y).
      apply (proj1 (HT1 _ (d - i * (cp - 1))%nat ltac:(nia)) _ X). }
  assert (One : (0 < length pos)%nat -> d = 0%nat -> length pos = 1%nat).
  { intros H0 Hd. destruct (Nat.eq_dec (length pos) 1) as [|H1]; [auto|]. destruct (Pos 1%nat ltac:(lia)) as (_ & _ & Y). lia. }
  assert (HeadV : (0 < length pos)%nat -> d = 0%nat -> exists H I, nth 0 Hom empty_basis = H /\ nth 0 Im empty_basis = I /\ b_dim I = 0%nat /\ (b_dim (nth 0 base empty_basis) = 0%nat -> H = nth 0 base empty_basis) /\
    ((0 < b_dim (nth 0 base empty_basis))%nat -> H = vsort rnd (nth 0 base empty_basis))).
  { intros H0 Hd. pose proof (One H0 Hd) as L1. destruct base as [|B0 [|B1 base]]; cbn [length] in Lb; try lia. cbn [nth].
    assert (PB0 : proper B0). { pose proof (Pr 0%nat H0 ltac:(lia)) as X. exact X. }
    destruct (mph_column _ _ _ _ _ _ _ _ EM PB0 ltac:(intros X [])) as (H & I & pre & os & C1 & C2 & _ & C4 & C5).
    pose proof (Out 0%nat H0) as X. unfold outs in X. rewrite C1 in X. cbn [nth_error] in X. injection X as X1 X2 _. exists H, I. rewrite <- X1, <- X2. auto. }
  assert (SB : same_off cp P P') by (intros j n' d' Hj; destruct (U j n' d' (or_introl Hj)) as (-> & -> & -> & ->); auto).
  assert (Dec : forall n' d', (exists i, (i < length pos)%nat /\ n' = (n + i * cp)%nat /\ d' = (d - i * (cp - 1))%nat) \/ (forall i, (i < length pos)%nat -> (n', d') <> ((n + i * cp)%nat, (d - i * (cp - 1))%nat))).
  { intros n' d'. destruct (existsb (fun i => Nat.eqb n' (n + i * cp) && Nat.eqb d' (d - i * (cp - 1))) (seq 0 (length pos))) eqn:EX.
    - left. apply existsb_exists in EX. destruct EX as (i & Hi & X). apply in_seq in Hi. apply andb_prop in X. destruct X as [X1 X2]. apply Nat.eqb_eq in X1, X2. exists i. split; [lia|]. auto.
    - right. intros i Hi X. injection X as X1 X2. assert (Y : existsb (fun i => Nat.eqb n' (n + i * cp) && Nat.eqb d' (d - i * (cp - 1))) (seq 0 (length pos)) = true); [|congruence].
      apply existsb_exists. exists i. split; [apply in_seq; lia|]. rewrite X1, X2, !Nat.eqb_refl. reflexivity. }
  split; [exact SB|]. split; [|split; [|split; [|split]]].
  - intros n' d' Hd'. destruct (Dec n' d') as [(i & Hi & -> & ->)|Hno].
    + destruct (W i Hi) as (-> & _ & ->). pose proof (proj1 (HT1 _ _ Hd') _ (Base i Hi)) as [Z1 Z2]. destruct (Zr i Hi Z1 Z2). split; intros y Ey; injection Ey as <-; auto.
    + destruct (U cp n' d' (or_intror Hno)) as (-> & _ & _ & ->). apply HT. exact Hd'.
  - intros n' H EH. destruct (Dec n' 0%nat) as [(i & Hi & -> & H0)|Hno].
    + destruct (W i Hi) as (X & _). rewrite <- H0, EH in X. injection X as ->. symmetry in H0. destruct (Last i Hi H0) as [L1 L2]. pose proof (Pr i Hi H0) as PB0.
      destruct (Nat.eq_dec (b_dim (nth i base empty_basis)) 0) as [Z0|Z0]; [destruct (L1 Z0) as [Y1 Y2]; split; [rewrite Y1, Y2; reflexivity|rewrite Y2; intros x []]|].
      destruct i as [|i]; [|rewrite L2 by lia; exact PB0]. destruct (HeadV Hi ltac:(lia)) as (H' & I & <- & _ & _ & _ & HV). rewrite HV by lia. apply proper_vsort. exact PB0.
    + destruct (U cp n' 0%nat (or_intror Hno)) as (X & _). rewrite X in EH. apply (HF2 _ _ EH).
  - intros n' Hn' Hst. unfold start_of in Hst. injection Hst as St1 St2. pose proof (Nat.div_mod n' cp ltac:(lia)) as DM. set (i := (n' / cp)%nat) in *. rewrite St1 in DM.
    assert (En : n' = (n + i * cp)%nat) by lia. assert (H0 : (d - i * (cp - 1) = 0)%nat) by lia.
    assert (Hi : (i < length pos)%nat) by (apply positions_len; [exact Hcp| | |]; nia).
    destruct (W i Hi) as (W1 & W2 & W3). pose proof (Base i Hi) as B0. rewrite <- En, H0 in W1, W2, W3, B0. destruct (Last i Hi H0) as [L1 L2]. split; intros Hc.
    + assert (i = 0%nat) by nia. assert (Ei : i = 0%nat) by assumption. rewrite Ei in *. assert (Hd0 : d = 0%nat) by lia. assert (En' : n' = n) by lia. rewrite En' in *.
      destruct (HeadV Hi Hd0) as (H' & I & <- & <- & HI0 & HV0 & HV). pose proof (One Hi Hd0) as L1'.
      assert (Ep : pos = [(n, 0%nat)]). { destruct pos as [|x [|y pos']] eqn:Ep; cbn [length] in L1'; try lia. destruct (Pos 0%nat ltac:(cbn; lia)) as (X & _). cbn [nth] in X. rewrite X. f_equal. f_equal; lia. }
      rewrite Ep in E. cbn [foldM fst snd] in E. destruct (compute_higher_representatives rnd S P1 n 0 cp) as [Q|] eqn:EC; [|discriminate]. cbn [bind] in E. injection E as ->.
      assert (W1' : tget (h_hom P1) cp n 0 = Ok (nth 0 Hom empty_basis)) by (rewrite <- S1; exact W1).
      destruct (higher_reps_get _ _ _ _ _ _ _ _ Hn W1' EC) as (R' & R1 & R2 & R3). rewrite S4 in R3.
      exists (nth 0 base empty_basis), (nth 0 Hom empty_basis), (nth 0 Im empty_basis), R'. destruct (SB (cp - 1)%nat n 0%nat ltac:(lia)) as (-> & _ & -> & _).
      split; [exact B0|]. split; [exact W1|]. split; [exact W2|]. split; [exact HI0|]. split; [exact W3|]. split; [exact R1|]. split.
      * intros Z0. split; [apply HV0; exact Z0|]. apply R2. rewrite (HV0 Z0). exact Z0.
      * intros Hp0. split; [apply HV; exact Hp0|]. apply R3. rewrite (HV Hp0). exact Hp0.
    + assert (Hi0 : (0 < i)%nat) by nia. exists (nth i base empty_basis), (nth i Hom empty_basis). destruct (SB (cp - 1)%nat n' 0%nat ltac:(lia)) as (-> & _).
      split; [exact B0|]. split; [exact W1|]. split; [exact W3|]. split; [exact L1|]. split; [apply L2; exact Hi0|].
      intros Hpos. assert (W1' : tget (h_hom P1) cp n' 0 = Ok (nth i Hom empty_basis)) by (rewrite <- S1; exact W1). rewrite (L2 Hi0 Hpos) in W1'.
      assert (In1 : In (n', 0%nat) pos). { destruct (Pos i Hi) as (X & _). rewrite <- En, H0 in X. rewrite <- X. apply nth_In. exact Hi. }
      assert (Keep : forall l Q Q', h_hom Q = h_hom P1 -> foldM (fun P nd => compute_higher_representatives rnd S P (fst nd) (snd nd) cp) l Q = Ok Q' -> h_hom Q' = h_hom P1).
      { intros l Q Q' EQ EF. refine (foldM_inv _ (fun T => h_hom T = h_hom P1) _ _ Q Q' EQ EF). intros s x s' _ A Es. apply higher_hom in Es. destruct Es as (-> & _). exact A. }
      destruct (foldM_split _ _ _ _ (n', 0%nat) In1 E) as (l1 & l2 & s1 & s2 & _ & F1 & F2 & F3). cbn [fst snd] in F2.
      pose proof (Keep l1 P1 s1 eq_refl F1) as K1. pose proof (higher_hom _ _ _ _ _ _ _ F2) as (K2 & _). rewrite <- K1 in W1'.
      pose proof (higher_reps_some rnd S s1 n' 0 cp s2 _ Hc W1' Hpos F2) as R2. rewrite K1 in W1'.
      refine (proj1 (foldM_inv _ (fun T => (exists R, tget (h_reps T) cp n' 0 = Ok R /\ R <> []) /\ h_hom T = h_hom P1) _ _ s2 P' (conj R2 (eq_trans K2 K1)) F3)).
      intros s [a b] s' _ [A A'] Es. cbn [fst snd] in Es. split; [|apply higher_hom in Es; destruct Es as (-> & _); exact A'].
      destruct (Nat.eq_dec a n') as [->|Na]; [destruct (Nat.eq_dec b 0) as [->|Nb]|].
      * rewrite <- A' in W1'. apply (higher_reps_some rnd S s n' 0 cp s' _ Hc W1' Hpos Es).
      * rewrite (higher_reps_other _ _ _ _ _ _ _ Es); [exact A|]. right. congruence.
      * rewrite (higher_reps_other _ _ _ _ _ _ _ Es); [exact A|]. right. congruence.
  - intros n' Hst. destruct (U cp n' 0%nat) as (A & B & C & D); [|split; [exact A|auto]]. right. intros i Hi X. injection X as X1 X2. apply Hst. destruct (Pos i Hi) as (_ & _ & Y).
    unfold start_of. subst n'. assert (E1 : ((n + i * cp) mod cp = n)%nat) by (rewrite Nat.mod_add by lia; apply Nat.mod_small; exact Hn).
    assert (E2 : ((n + i * cp) / cp = i)%nat) by (rewrite Nat.div_add by lia; rewrite Nat.div_small by exact Hn; reflexivity). rewrite E1, E2. f_equal. lia.
  - intros n' d' Hn'. destruct (U cp n' d') as (A & B & C & D); [|split; [exact A|auto]]. right. intros i Hi X. injection X as X1 X2. destruct (Pos i Hi) as (_ & Y & _). lia.
Qed.

(** ** A page, and all pages *)
Lemma row_steps rnd S cp : (2 <= cp)%nat -> forall l P P', NoDup l -> (forall x, In x l -> (fst x < cp)%nat) ->
  foldM (higher_page_row rnd S cp) l P = Ok P' -> row_proper P (cp - 1) -> calm P (cp - 1) -> calm P cp -> row_proper P cp ->
  same_off cp P P' /\ calm P' cp /\ row_proper P' cp /\ (forall n, (n < length (s_nerve S))%nat -> In (start_of cp n) l -> nst rnd P' cp n) /\
  (forall n, ~ In (start_of cp n) l -> same_at cp n 0 P P') /\ (forall n d, (length (s_nerve S) <= n)%nat -> same_at cp n d P P').
Proof.
  intros Hcp. induction l as [|[n d] l IH]; intros P P' ND Hl E HF HT1 HT HF2; cbn [foldM] in E.
  { injection E as <-. split; [apply same_off_refl|]. split; [exact HT|]. split; [exact HF2|]. split; [intros n _ []|]. split; intros; unfold same_at; auto. }
  destruct (higher_page_row rnd S cp P (n, d)) as [Q|] eqn:EQ; [|discriminate]. cbn [bind] in E. inversion ND as [|? ? N1 N2]; subst.
  destruct (row_step _ _ _ _ _ _ _ Hcp (Hl _ (or_introl eq_refl)) EQ HF HT1 HT HF2) as (A1 & A2 & A3 & A4 & A5 & A6).
  destruct (IH Q P' N2 (fun x Hx => Hl x (or_intror Hx)) E) as (B1 & B2 & B3 & B4 & B5 & B6); auto.
  { apply (row_proper_off cp _ P); auto. lia. }
  { apply (calm_off cp _ P); auto. lia. }
  split; [apply (same_off_trans _ _ _ _ A1 B1)|]. split; [exact B2|]. split; [exact B3|]. split; [|split].
  - intros n' Hn [X|X]; [|apply B4; auto]. apply (nst_same rnd Q); [lia|exact B1|apply B5; rewrite <- X; exact N1|apply A4; auto].
  - intros n' Hno. destruct (A5 n') as (C1 & C2 & C3 & C4); [intros X; apply Hno; left; auto|].
    destruct (B5 n') as (D1 & D2 & D3 & D4); [intros X; apply Hno; right; exact X|]. unfold same_at. rewrite D1, D2, D3, D4. auto.
  - intros n' d' Hno. destruct (A6 n' d' Hno) as (C1 & C2 & C3 & C4). destruct (B6 n' d' Hno) as (D1 & D2 & D3 & D4). unfold same_at. rewrite D1, D2, D3, D4. auto.
Qed.

Lemma start_before cp m n : (2 <= cp)%nat -> (n < m)%nat -> In (start_of cp n) (flat_map (fun n => map (fun d => (n, d)) (seq 0 m)) (seq 0 cp)).
Proof.
  intros Hcp Hn. apply starts_in. split; [apply Nat.mod_upper_bound; lia|]. pose proof (Nat.div_mod n cp ltac:(lia)). set (q := (n / cp)%nat) in *.
  assert (q * (cp - 1) <= q * cp)%nat by (apply Nat.mul_le_mono_l; lia). lia.
Qed.

Lemma same_at_trans k n d P Q R : same_at k n d P Q -> same_at k n d Q R -> same_at k n d P R.
Proof. intros (A1 & A2 & A3 & A4) (B1 & B2 & B3 & B4). unfold same_at. rewrite B1, B2, B3, B4. auto. Qed.

Lemma row_pages rnd S m : forall j cp P P', (2 <= cp)%nat ->
  foldM (fun P cp => foldM (higher_page_row rnd S cp) (flat_map (fun n => map (fun d => (n, d)) (seq 0 m)) (seq 0 cp)) P) (seq cp j) P = Ok P' ->
  (forall k, (cp - 1 <= k)%nat -> calm P k) -> (forall k, (cp - 1 <= k)%nat -> row_proper P k) ->
  (forall i n d, (i < cp)%nat -> same_at i n d P P') /\ (forall k, (cp - 1 <= k)%nat -> calm P' k) /\
  (forall k n, (cp <= k < cp + j)%nat -> (n < length (s_nerve S))%nat -> (n < m)%nat -> nst rnd P' k n) /\
  (forall k n d, (length (s_nerve S) <= n)%nat -> same_at k n d P P').
Proof.
  induction j as [|j IH]; intros cp P P' Hcp E HT HF; cbn [seq foldM] in E.
  { injection E as <-. split; [intros; unfold same_at; auto|]. split; [exact HT|]. split; [intros; lia|]. intros; unfold same_at; auto. }
  match type of E with bind ?x _ = _ => destruct x as [Q|] eqn:EQ; [|discriminate] end. cbn [bind] in E.
  destruct (row_steps rnd S cp Hcp _ _ _ (starts_NoDup m cp) ltac:(intros [a b] Hx; apply starts_in in Hx; apply Hx) EQ (HF (cp - 1)%nat ltac:(lia)) (HT (cp - 1)%nat ltac:(lia)) (HT cp ltac:(lia)) (HF cp ltac:(lia))) as (A1 & A2 & A3 & A4 & _ & A6).
  destruct (IH (Datatypes.S cp) Q P' ltac:(lia) E) as (B1 & B2 & B3 & B4).
  { intros k Hk. destruct (Nat.eq_dec k cp) as [->|Hne]; [exact A2|]. apply (calm_off cp _ P); auto. apply HT. lia. }
  { intros k Hk. destruct (Nat.eq_dec k cp) as [->|Hne]; [exact A3|]. apply (row_proper_off cp _ P); auto. apply HF. lia. }
  split; [|split; [|split]].
  - intros i n d Hi. apply (same_at_trans _ _ _ _ Q); [|apply B1; lia]. exact (A1 i n d ltac:(lia)).
  - intros k Hk. destruct (Nat.eq_dec k (cp - 1)) as [->|Hne]; [|apply B2; lia]. intros n d Hd. destruct (B1 (cp - 1)%nat n d ltac:(lia)) as (-> & _ & _ & ->).
    destruct (A1 (cp - 1)%nat n d ltac:(lia)) as (-> & _ & _ & ->). apply HT; [lia|exact Hd].
  - intros k n Hk Hn Hm. destruct (Nat.eq_dec k cp) as [->|Hne]; [|apply B3; auto; lia]. pose proof (A4 n Hn (start_before cp m n Hcp Hm)) as [C1 C2]. split; intros Hc.
    + destruct (C1 Hc) as (H & H' & I' & R' & E1 & E2 & E3 & E4 & E5 & E6 & E7 & E8). destruct (B1 cp n 0%nat ltac:(lia)) as (X1 & X2 & X3 & X4). destruct (B1 (cp - 1)%nat n 0%nat ltac:(lia)) as (Y1 & _ & Y3 & _).
      exists H, H', I', R'. rewrite X1, X2, X3, X4, Y1, Y3. auto 10.
    + destruct (C2 Hc) as (H & H' & E1 & E2 & E3 & E4). destruct (B1 cp n 0%nat ltac:(lia)) as (X1 & X2 & X3 & X4). destruct (B1 (cp - 1)%nat n 0%nat ltac:(lia)) as (Y1 & _ & Y3 & _).
      exists H, H'. rewrite X1, X3, X4, Y1. auto.
  - intros k n d Hn. apply (same_at_trans _ _ _ _ Q); [|apply B4; exact Hn]. destruct (Nat.eq_dec k cp) as [->|Hne]; [apply A6; exact Hn|]. exact (A1 k n d Hne).
Qed.
