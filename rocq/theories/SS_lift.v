(** * [first_page_local_lift] on the homology of a valid complex (C45) *)
From Verif Require Import Base ListX SortX Lin Gauss_model Gauss_arith Gauss_solve Gauss_rad Gauss_first Gauss_props Spec_Gauss Basis_model PH_model PH_lin PH_step PH_loop PH_props Spec_PH
  Rips_chain Simp_model Simp_lists LC_model SS_model SS_cech.
From Coq Require Import Znumtheory.
Local Open Scope Z_scope.

(** The body shared by the three cases. *)
Definition lift_core (p : Z) (w : nat) (imd : nat) (imc homc : list vec) (rads : list Z) (rows : list vec) (radii : list Z)
  : res (option (mat * mat)) :=
  let start := length (imc ++ homc) in
  '(_, T) <- gauss_col_rad (Mat w ((imc ++ homc) ++ rows)) (rads ++ radii) start p ;;
  let T' := map (map (fun x => (- x) mod p)) (skipn start (cols T)) in
  Ok (Some (Mat (Nat.min imd (nrows T)) (map (firstn imd) T'),
            Mat (Nat.min start (nrows T) - Nat.min imd (nrows T)) (map (fun c => skipn imd (firstn start c)) T'))).

Lemma local_lift_core S n deg w rows radii k l im hom :
  the_local S n k = Ok l -> im0 l deg = Ok im -> hom0 l deg = Ok hom -> radii <> [] ->
  b_dim im = length (cols (b_coords im)) -> b_dim hom = length (cols (b_coords hom)) ->
  length (b_bars im) = b_dim im -> length (b_bars hom) = b_dim hom ->
  (b_dim im <> 0%nat -> nrows (b_coords im) = w) -> (b_dim hom <> 0%nat -> nrows (b_coords hom) = w) ->
  (0 < b_dim im + b_dim hom)%nat ->
  first_page_local_lift S n deg w rows radii k =
    lift_core (s_p S) w (b_dim im) (cols (b_coords im)) (cols (b_coords hom)) (births im ++ births hom) rows radii.
Proof.
  intros E1 E2 E3 Hr D1 D2 B1 B2 N1 N2 Hpos. unfold first_page_local_lift.
  destruct (Nat.eqb_spec (length radii) 0) as [E|_]; [destruct radii; [congruence|discriminate]|].
  rewrite E1. cbn [bind]. rewrite E2. cbn [bind]. rewrite E3. cbn [bind].
  destruct (Nat.ltb_spec 0 (b_dim im)) as [H1|H1]; destruct (Nat.ltb_spec 0 (b_dim hom)) as [H2|H2]; cbn [andb].
  - rewrite N1, N2 by lia. rewrite Nat.eqb_refl. unfold mappend. cbn [nrows cols]. rewrite N1 by lia. rewrite Nat.eqb_refl. cbn [negb].
    unfold ncols. cbn [cols]. reflexivity.
  - rewrite N1 by lia. rewrite Nat.eqb_refl. cbn [negb]. unfold lift_core, births.
    replace (cols (b_coords hom)) with (@nil vec) by (symmetry; apply length_zero_iff_nil; lia).
    replace (b_bars hom) with (@nil bar) by (symmetry; apply length_zero_iff_nil; lia). cbn [map]. rewrite !app_nil_r. reflexivity.
  - rewrite N2 by lia. rewrite Nat.eqb_refl. cbn [negb]. unfold lift_core, births.
    replace (cols (b_coords im)) with (@nil vec) by (symmetry; apply length_zero_iff_nil; lia).
    replace (b_bars im) with (@nil bar) by (symmetry; apply length_zero_iff_nil; lia). cbn [map app]. reflexivity.
  - lia.
Qed.

Lemma vget_negmod p v k : vget (map (fun x => (- x) mod p) v) k = (- vget v k) mod p.
Proof. unfold vget. revert k. induction v as [|x v IH]; intros [|k]; cbn [map nth]; auto. Qed.

Lemma vget_firstn a v k : vget (firstn a v) k = if Nat.ltb k a then vget v k else 0.
Proof.
  unfold vget, vec. revert a k. induction v as [|x v IH]; intros [|a] [|k]; cbn [firstn nth]; auto; try (destruct (Nat.ltb _ _); reflexivity).
  rewrite IH. reflexivity.
Qed.

Lemma vget_skipn a v k : vget (skipn a v) k = vget v (a + k).
Proof. unfold vget. apply nth_skipn. Qed.

Section Core.
Variables (p : Z) (w : nat) (imc homc : list vec) (rads : list Z) (rows : list vec) (radii : list Z).
Hypothesis Hp : prime p.
Hypothesis Him : Forall (fun v => length v = w) imc.
Hypothesis Hhom : Forall (fun v => length v = w) homc.
Hypothesis Hrows : Forall (fun v => length v = w) rows.
Hypothesis Hrads : length rads = length (imc ++ homc).
Hypothesis Hradii : length radii = length rows.
Let s := length (imc ++ homc).
Let A := Mat w ((imc ++ homc) ++ rows).

Lemma core_wf : wf_mat A.
Proof. unfold wf_mat, A. cbn [cols nrows]. apply Forall_app. split; auto. apply Forall_app. auto. Qed.

Lemma core_ncols : ncols A = (s + length rows)%nat.
Proof. unfold ncols, A. cbn [cols]. rewrite app_length. reflexivity. Qed.

Lemma core_im i k : (k < length imc)%nat -> get A i k = vget (nth k imc []) i.
Proof. intros H. unfold get, col, A. cbn [cols]. rewrite app_nth1 by (rewrite app_length; lia). rewrite app_nth1 by auto. reflexivity. Qed.

Lemma core_hom i h : (h < length homc)%nat -> get A i (length imc + h) = vget (nth h homc []) i.
Proof.
  intros H. unfold get, col, A. cbn [cols]. rewrite app_nth1 by (rewrite app_length; lia). rewrite app_nth2 by lia.
  replace (length imc + h - length imc)%nat with h by lia. reflexivity.
Qed.

Lemma core_row i g : get A i (s + g) = vget (nth g rows []) i.
Proof. unfold get, col, A. cbn [cols]. rewrite app_nth2 by (unfold s; lia). unfold s. replace (length (imc ++ homc) + g - length (imc ++ homc))%nat with g by lia. reflexivity. Qed.

Lemma core_rad k : (k < s)%nat -> nth k (rads ++ radii) 0 = nth k rads 0.
Proof. intros H. apply app_nth1. unfold s in H. lia. Qed.

Lemma core_radii g : nth (s + g) (rads ++ radii) 0 = nth g radii 0.
Proof. rewrite app_nth2 by (unfold s; lia). f_equal. unfold s. lia. Qed.

Lemma lift_core_sound o : lift_core p w (length imc) imc homc rads rows radii = Ok o ->
  exists gammas betas, o = Some (gammas, betas) /\ nrows gammas = length imc /\ nrows betas = length homc /\
    ncols gammas = length rows /\ ncols betas = length rows /\
    (forall k g, 0 <= get gammas k g < p) /\ (forall h g, 0 <= get betas h g < p) /\
    forall g, (g < length rows)%nat ->
      (forall k, get gammas k g <> 0 -> (k < length imc)%nat /\ nth k rads 0 <= nth g radii 0) /\
      (forall h, get betas h g <> 0 -> (h < length homc)%nat /\ nth (length imc + h) rads 0 <= nth g radii 0 /\
         forall k, (k < length imc)%nat -> nth k rads 0 <= nth g radii 0 -> index_pivot (vmod (nth k imc []) p) <> index_pivot (vmod (nth h homc []) p)) /\
      forall i, cong p (vget (nth g rows []) i)
        (Zsum (length imc) (fun k => get gammas k g * vget (nth k imc []) i) + Zsum (length homc) (fun h => get betas h g * vget (nth h homc []) i)).
Proof.
  unfold lift_core. fold s A. intros E. pose proof (prime_ge_2 p Hp) as Hp2.
  destruct (gauss_col_rad A (rads ++ radii) s p) as [[Red T]|] eqn:EG; [|discriminate]. cbn [bind] in E. injection E as <-.
  assert (HR : (ncols A <= length (rads ++ radii))%nat) by (rewrite core_ncols, app_length; unfold s; lia).
  destruct (gauss_col_rad_shape A _ s p core_wf Hp2 HR Red T EG) as (_ & _ & NT & CT & _).
  pose proof (C10_aux A _ s p Red T core_wf Hp2 HR EG) as HT.
  rewrite core_ncols in *. set (T' := map (map _) (skipn s (cols T))).
  assert (LT' : length T' = length rows) by (unfold T'; rewrite map_length, skipn_length; unfold ncols in CT; lia).
  assert (GT : forall g k, (g < length rows)%nat -> vget (nth g T' []) k = (- get T k (s + g)) mod p).
  { intros g k Hg. unfold T'. rewrite (@nth_map vec vec (map (fun x => (- x) mod p)) _ g []) by (rewrite skipn_length; unfold ncols in CT; lia).
    rewrite vget_negmod. rewrite nth_skipn. reflexivity. }
  assert (Ls : s = (length imc + length homc)%nat) by (unfold s; apply app_length).
  rewrite NT. replace (Nat.min (length imc) (s + length rows)) with (length imc) by lia. replace (Nat.min s (s + length rows)) with s by lia.
  set (gammas := Mat _ (map (firstn _) T')). set (betas := Mat _ (map (fun c => skipn _ _) T')).
  assert (Gg : forall k g, get gammas k g = if Nat.ltb g (length rows) then if Nat.ltb k (length imc) then (- get T k (s + g)) mod p else 0 else 0).
  { intros k g. unfold get at 1, col, gammas. cbn [cols]. destruct (Nat.ltb_spec g (length rows)) as [Hg|Hg].
    - rewrite (@nth_map vec vec (firstn (length imc)) T' g []) by (unfold vec in *; lia). rewrite vget_firstn, GT by auto. reflexivity.
    - rewrite nth_overflow by (rewrite map_length; lia). destruct k; reflexivity. }
  assert (Gb : forall h g, get betas h g = if Nat.ltb g (length rows) then if Nat.ltb h (length homc) then (- get T (length imc + h) (s + g)) mod p else 0 else 0).
  { intros h g. unfold get at 1, col, betas. cbn [cols]. destruct (Nat.ltb_spec g (length rows)) as [Hg|Hg].
    - rewrite (@nth_map vec vec (fun c => skipn (length imc) (firstn s c)) T' g []) by (unfold vec in *; lia). rewrite vget_skipn, vget_firstn, GT by auto.
      destruct (Nat.ltb_spec h (length homc)), (Nat.ltb_spec (length imc + h) s); auto; lia.
    - rewrite nth_overflow by (rewrite map_length; lia). destruct h; reflexivity. }
  exists gammas, betas. split; [reflexivity|]. cbn [nrows gammas betas]. split; [reflexivity|]. split; [lia|].
  unfold ncols. cbn [cols gammas betas]. rewrite !map_length. split; [auto|]. split; [auto|].
  split; [intros k g; rewrite Gg; destruct (Nat.ltb _ _); [destruct (Nat.ltb _ _)|]; try (apply Z.mod_pos_bound); lia|].
  split; [intros h g; rewrite Gb; destruct (Nat.ltb _ _); [destruct (Nat.ltb _ _)|]; try (apply Z.mod_pos_bound); lia|].
  intros g Hg. destruct (HT (s + g)%nat ltac:(lia)) as (_ & Hprod & Hdiag & Hout).
  assert (Hz : forall x, (- x) mod p <> 0 -> x <> 0) by (intros x Hx ->; apply Hx; reflexivity).
  split; [|split].
  - intros k Hne. rewrite Gg in Hne. destruct (Nat.ltb_spec g (length rows)); [|lia]. destruct (Nat.ltb_spec k (length imc)); [|congruence].
    apply Hz in Hne. destruct (Hout k ltac:(lia) Hne) as [H1 H2]. split; [auto|]. rewrite core_radii, core_rad in H2 by lia. auto.
  - intros h Hne. rewrite Gb in Hne. destruct (Nat.ltb_spec g (length rows)); [|lia]. destruct (Nat.ltb_spec h (length homc)); [|congruence].
    apply Hz in Hne. destruct (Hout (length imc + h)%nat ltac:(lia) Hne) as [H1 H2]. split; [auto|]. rewrite core_radii, core_rad in H2 by lia. split; [auto|].
    intros k Hk Hkr. pose proof (gauss_col_rad_first A _ s p core_wf Hp2 ltac:(rewrite core_ncols; exact HR) Red T (s + g) (length imc + h) EG ltac:(rewrite core_ncols; lia) ltac:(lia) Hne k ltac:(lia)) as HF. cbv beta zeta in HF.
    rewrite core_radii, core_rad in HF by lia. specialize (HF Hkr). unfold col, A in HF. cbn [cols] in HF.
    rewrite !(app_nth1 (imc ++ homc)) in HF by (rewrite app_length; lia). rewrite app_nth1 in HF by auto. rewrite app_nth2 in HF by lia.
    replace (length imc + h - length imc)%nat with h in HF by lia. exact HF.
  - intros i. destruct (Nat.lt_ge_cases i w) as [Hi|Hi].
    2:{ assert (O : forall l k, Forall (fun v : vec => length v = w) l -> vget (nth k l []) i = 0).
        { intros l k Hl. unfold vget. destruct (Nat.lt_ge_cases k (length l)) as [Hk|Hk].
          - apply nth_overflow. rewrite Forall_forall in Hl. rewrite (Hl (nth k l [])) by (apply nth_In; auto). auto.
          - rewrite (nth_overflow l) by auto. destruct i; reflexivity. }
        rewrite O by auto. rewrite !Zsum_0; [reflexivity| |]; intros k _; rewrite O by auto; ring. }
    assert (H0 : cong p (prod_entry (s + length rows) A T i (s + g)) 0).
    { apply cong_iff_mod; [lia|]. rewrite Hprod by (cbn [A nrows]; auto). rewrite Zmod_0_l. reflexivity. }
    unfold prod_entry in H0. rewrite Zsum_app in H0. rewrite Ls in H0. rewrite Zsum_app in H0.
    rewrite (Zsum_ext (length imc) _ (fun k => vget (nth k imc []) i * get T k (s + g))) in H0
      by (intros k Hk; rewrite core_im by auto; rewrite <- Ls; reflexivity).
    rewrite (Zsum_ext (length homc) _ (fun h => vget (nth h homc []) i * get T (length imc + h) (s + g))) in H0
      by (intros h Hh; rewrite core_hom by auto; rewrite <- Ls; reflexivity).
    rewrite (Zsum_single (length rows) g) in H0; auto.
    2:{ intros k Hk Hne. destruct (Z.eq_dec (get T (length imc + length homc + k) (length imc + length homc + g)) 0) as [->|Hne']; [ring|].
        rewrite <- Ls in Hne'. destruct (Hout (s + k)%nat ltac:(lia) Hne') as [H1 _]. lia. }
    rewrite <- Ls in H0. rewrite core_row, Hdiag in H0.
    rewrite (Zsum_cong p (length imc) (fun k => get gammas k g * _) (fun k => (-1) * (vget (nth k imc []) i * get T k (s + g)))).
    2:{ intros k Hk. rewrite Gg. destruct (Nat.ltb_spec g (length rows)); [|lia]. destruct (Nat.ltb_spec k (length imc)); [|lia].
        rewrite cong_mod. apply cong_eq. ring. }
    rewrite (Zsum_cong p (length homc) (fun h => get betas h g * _) (fun h => (-1) * (vget (nth h homc []) i * get T (length imc + h) (s + g)))).
    2:{ intros h Hh. rewrite Gb. destruct (Nat.ltb_spec g (length rows)); [|lia]. destruct (Nat.ltb_spec h (length homc)); [|lia].
        rewrite cong_mod. apply cong_eq. ring. }
    rewrite !Zsum_scale. destruct H0 as [q Hq]. exists q. rewrite <- Hq. ring.
Qed.

Lemma lift_core_total :
  (forall k l i, (k < s)%nat -> (l < s)%nat -> pivot_at (vmod (nth k (imc ++ homc) []) p) i -> pivot_at (vmod (nth l (imc ++ homc) []) p) i ->
     vmod (nth k (imc ++ homc) []) p = vmod (nth l (imc ++ homc) []) p) ->
  (forall g, (g < length rows)%nat -> exists c c', (forall k, nth g radii 0 < nth k rads 0 -> c k = 0) /\
     (forall h, nth g radii 0 < nth (length imc + h) rads 0 -> c' h = 0) /\
     forall i, cong p (vget (nth g rows []) i)
       (Zsum (length imc) (fun k => c k * vget (nth k imc []) i) + Zsum (length homc) (fun h => c' h * vget (nth h homc []) i))) ->
  exists o, lift_core p w (length imc) imc homc rads rows radii = Ok o.
Proof.
  intros Hpiv Hsol. unfold lift_core. fold s A.
  assert (HR : (ncols A <= length (rads ++ radii))%nat) by (rewrite core_ncols, app_length; unfold s; lia).
  pose proof (prime_ge_2 p Hp) as Hp2.
  assert (Ls : s = (length imc + length homc)%nat) by (unfold s; apply app_length).
  destruct (C11_aux A (rads ++ radii) s p core_wf Hp HR) as [HT _]. destruct HT as (Red & T & ->); [|cbn [bind]; eauto].
  intros j Hj. rewrite core_ncols in Hj. assert (Ej : exists g, j = (s + g)%nat /\ (g < length rows)%nat) by (exists (j - s)%nat; lia).
  destruct Ej as (g & -> & Hg). split.
  - intros k l i Hk Hl _ _. assert (Ec : forall k, (k < s)%nat -> col A k = nth k (imc ++ homc) []) by (intros k' Hk'; unfold col, A; cbn [cols]; apply app_nth1; auto).
    rewrite !Ec by auto. apply Hpiv; auto.
  - destruct (Hsol g Hg) as (c & c' & H1 & H2 & H3). rewrite core_radii.
    exists (fun k => if Nat.ltb k s then if nth k (rads ++ radii) 0 <=? nth g radii 0 then if Nat.ltb k (length imc) then c k else c' (k - length imc)%nat else 0 else 0).
    split.
    + intros k Hk. destruct (Nat.ltb_spec k s) as [Hks|]; auto. destruct (Z.leb_spec (nth k (rads ++ radii) 0) (nth g radii 0)); auto. tauto.
    + intros i Hi. apply cong_iff_mod; [lia|]. rewrite core_ncols, Zsum_app. rewrite (Zsum_0 (length rows)).
      2:{ intros k _. destruct (Nat.ltb_spec (s + k) s); [lia|ring]. }
      rewrite core_row, (H3 i). rewrite Ls at 1. rewrite Zsum_app. rewrite Z.add_0_r.
      apply cong_add; apply Zsum_cong; intros k Hk; apply cong_eq.
      * rewrite core_im by auto. destruct (Nat.ltb_spec k s); [|lia]. destruct (Nat.ltb_spec k (length imc)); [|lia].
        rewrite core_rad by auto. destruct (Z.leb_spec (nth k rads 0) (nth g radii 0)); [reflexivity|]. rewrite H1 by auto. reflexivity.
      * rewrite core_hom by auto. destruct (Nat.ltb_spec (length imc + k) s); [|lia]. destruct (Nat.ltb_spec (length imc + k) (length imc)); [lia|].
        replace (length imc + k - length imc)%nat with k by lia.
        rewrite core_rad by auto. destruct (Z.leb_spec (nth (length imc + k) rads 0) (nth g radii 0)); [reflexivity|]. rewrite H2 by auto. reflexivity.
Qed.
End Core.

Section PHLift.
Variables (rnd : Z -> Z) (p max_rad : Z) (n0 : nat) (Ds : list mat) (Rs : list (list Z)) (out : ph_out).
Hypothesis Hp : prime p.
Hypothesis VC : valid_complex p max_rad n0 Ds Rs.
Hypothesis Hout : persistent_homology rnd n0 Ds Rs max_rad p = Ok out.
Variables (S : ss) (n k deg : nat) (l : local).
Hypothesis Hd : (deg <= length Ds)%nat.
Hypothesis HSp : s_p S = p.
Hypothesis Hl : the_local S n k = Ok l.
Hypothesis Hlo : l_out l = out.
Let im := nth deg (ph_im out) empty_basis.
Let hom := nth deg (ph_hom out) empty_basis.
Let w := csize Rs deg.
Variables (rows : list vec) (radii : list Z).
Hypothesis Hrows : Forall (fun v => length v = w) rows.
Hypothesis Hradii : length radii = length rows.

Lemma ph_lengths : length (ph_hom out) = Datatypes.S (length Ds) /\ length (ph_im out) = Datatypes.S (length Ds) /\ length (ph_preim out) = Datatypes.S (length Ds).
Proof. destruct (C23_aux rnd p max_rad n0 Ds Rs out Hp VC Hout) as (H1 & H2 & H3 & _). auto. Qed.

Lemma im0_ok : im0 l deg = Ok im.
Proof. unfold im0. rewrite Hlo. apply nth_err_nth. destruct ph_lengths as (_ & H & _). lia. Qed.

Lemma hom0_ok : hom0 l deg = Ok hom.
Proof. unfold hom0. rewrite Hlo. apply nth_err_nth. destruct ph_lengths as (H & _ & _). lia. Qed.

Lemma bases_shape : b_dim im = length (cols (b_coords im)) /\ b_dim hom = length (cols (b_coords hom)) /\
  length (b_bars im) = b_dim im /\ length (b_bars hom) = b_dim hom /\
  (b_dim im <> 0%nat -> nrows (b_coords im) = w) /\ (b_dim hom <> 0%nat -> nrows (b_coords hom) = w) /\
  Forall (fun v => length v = w) (cols (b_coords im)) /\ Forall (fun v => length v = w) (cols (b_coords hom)).
Proof.
  destruct (out_ok rnd p max_rad n0 Ds Rs out Hp VC Hout deg Hd) as (ims & gens & HO & IO & Hh & Hi & _).
  fold im in Hi. fold hom in Hh. destruct Hh as (A1 & A2 & A3 & A4 & _). destruct Hi as (B1 & B2 & B3 & B4 & _).
  rewrite A1, A2, A3, B1, B2, B3, !map_length. repeat (split; [reflexivity|]).
  split; [intros Hne; apply B4; intros ->; apply Hne; reflexivity|].
  split; [intros Hne; apply A4; intros ->; apply Hne; reflexivity|].
  split; apply Forall_forall; intros v Hv; apply in_map_iff in Hv; destruct Hv as (g & <- & Hg).
  - apply (io_len _ _ _ _ _ _ IO g Hg).
  - apply (ho_len _ _ _ _ _ _ _ HO g Hg).
Qed.

Lemma births_nth_im k0 : (k0 < b_dim im)%nat -> nth k0 (births im ++ births hom) 0 = bbirth (b_bars im) k0.
Proof.
  intros H. destruct bases_shape as (_ & _ & L1 & _). unfold births. rewrite app_nth1 by (rewrite map_length; lia).
  unfold bbirth. rewrite (nth_map fst (b_bars im) k0 (0, 0)) by lia. reflexivity.
Qed.

Lemma births_nth_hom h : (h < b_dim hom)%nat -> nth (b_dim im + h) (births im ++ births hom) 0 = bbirth (b_bars hom) h.
Proof.
  intros H. destruct bases_shape as (_ & _ & L1 & L2 & _). unfold births. rewrite app_nth2 by (rewrite map_length; lia).
  rewrite map_length, L1. replace (b_dim im + h - b_dim im)%nat with h by lia.
  unfold bbirth. rewrite (nth_map fst (b_bars hom) h (0, 0)) by lia. reflexivity.
Qed.

Lemma holds_list {X} (br : X -> Z * Z) (vc : X -> vec) rd n1 b s0 h : holds br vc rd n1 b s0 -> (h < length (b_bars b))%nat ->
  exists g, In g s0 /\ nth h (b_bars b) (0, 0) = br g /\ nth h (cols (b_coords b)) [] = vc g.
Proof.
  intros (H1 & H2 & _) Hk. rewrite H1, map_length in Hk. destruct s0 as [|g0 s']; [cbn in Hk; lia|]. exists (nth h (g0 :: s') g0).
  split; [apply nth_In; auto|]. rewrite H1, H2. split; [apply nth_map; auto|]. apply (nth_map vc); auto.
Qed.

Lemma holds_list_in {X} (br : X -> Z * Z) (vc : X -> vec) rd n1 b s0 g : holds br vc rd n1 b s0 -> In g s0 ->
  exists h, (h < length (b_bars b))%nat /\ nth h (b_bars b) (0, 0) = br g /\ nth h (cols (b_coords b)) [] = vc g.
Proof.
  intros (H1 & H2 & _) Hg. apply (In_nth _ _ g) in Hg. destruct Hg as (h & Hh & E). exists h. rewrite H1, H2, map_length. split; [auto|].
  split; [rewrite (nth_map br s0 h g) by auto; congruence|]. rewrite (nth_map vc s0 h g) by auto. congruence.
Qed.

(** *** C45, soundness *)
Theorem local_lift_sound o : first_page_local_lift S n deg w rows radii k = Ok o ->
  match o with
  | None => rows = [] \/ (b_bars im = [] /\ b_bars hom = [])
  | Some (gammas, betas) =>
      nrows gammas = length (b_bars im) /\ nrows betas = length (b_bars hom) /\
      ncols gammas = length rows /\ ncols betas = length rows /\
      (forall a g, 0 <= get gammas a g < p) /\ (forall h g, 0 <= get betas h g < p) /\
      forall g, (g < length rows)%nat ->
        (forall a, get gammas a g <> 0 -> (a < length (b_bars im))%nat /\ bbirth (b_bars im) a <= nth g radii 0) /\
        (forall h, get betas h g <> 0 -> (h < length (b_bars hom))%nat /\ bbirth (b_bars hom) h <= nth g radii 0 /\
           (nth g radii 0 < bdeath (b_bars hom) h \/ max_rad <= bdeath (b_bars hom) h)) /\
        forall i, cong p (vget (nth g rows []) i)
          (Zsum (length (b_bars im)) (fun a => get gammas a g * get (b_coords im) i a)
           + Zsum (length (b_bars hom)) (fun h => get betas h g * get (b_coords hom) i h))
  end.
Proof.
  intros E. destruct bases_shape as (D1 & D2 & L1 & L2 & N1 & N2 & F1 & F2).
  destruct (Nat.eq_dec (length radii) 0) as [Hr0|Hr0].
  { unfold first_page_local_lift in E. rewrite Hr0 in E. cbn in E. injection E as <-. left. apply length_zero_iff_nil. lia. }
  destruct (Nat.eq_dec (b_dim im + b_dim hom) 0) as [H0|H0].
  { unfold first_page_local_lift in E. destruct (Nat.eqb_spec (length radii) 0); [lia|]. rewrite Hl in E. cbn [bind] in E.
    rewrite im0_ok, hom0_ok in E. cbn [bind] in E. replace (b_dim im) with 0%nat in E by lia. replace (b_dim hom) with 0%nat in E by lia.
    cbn in E. injection E as <-. right. split; apply length_zero_iff_nil; lia. }
  rewrite (local_lift_core S n deg w rows radii k l im hom Hl im0_ok hom0_ok) in E; auto; [|intros ->; apply Hr0; reflexivity|lia].
  rewrite HSp in E. rewrite D1 in E.
  apply lift_core_sound in E; auto.
  2:{ unfold births. rewrite !app_length, !map_length. lia. }
  destruct E as (gammas & betas & -> & H1 & H2 & H3 & H4 & H5 & H6 & H7).
  rewrite L1, L2, D1, D2. repeat (split; [assumption|]).
  intros g Hg. destruct (H7 g Hg) as (K1 & K2 & K3). split; [|split].
  - intros a Ha. destruct (K1 a Ha) as [X Y]. split; auto. rewrite births_nth_im in Y by lia. auto.
  - intros h Hh. destruct (K2 h Hh) as (X & Y & Z0). split; auto. rewrite <- D1 in Y. rewrite births_nth_hom in Y by lia. split; auto.
    destruct (Z_lt_ge_dec (nth g radii 0) (bdeath (b_bars hom) h)) as [|Hge]; [left; auto|]. right.
    destruct (Z_lt_ge_dec (bdeath (b_bars hom) h) max_rad) as [Hlt|]; [|lia]. exfalso.
    destruct (out_ok rnd p max_rad n0 Ds Rs out Hp VC Hout deg Hd) as (ims & gens & HO & IO & Hh' & Hi' & _).
    fold im in Hi'. fold hom in Hh'. rewrite <- D2 in X.
    destruct (holds_list _ _ _ _ _ _ h Hh' ltac:(lia)) as (x & Hx & Eb & Ev).
    unfold bdeath in *. rewrite Eb in *. destruct (ho_fin _ _ _ _ _ _ _ HO x Hx Hlt) as (y & Hy & Ey & Ed).
    destruct (holds_list_in _ _ _ _ _ _ y Hi' Hy) as (k0 & Hk0 & Eb2 & Ev2).
    apply (Z0 k0 ltac:(lia)); [|unfold vec in *; rewrite Ev, Ev2, Ey; reflexivity].
    rewrite births_nth_im by lia. unfold bbirth. rewrite Eb2. unfold gdeath in Ed. rewrite Ed. lia.
  - intros i. apply K3.
Qed.

(** *** C45, completeness *)
Lemma pivot_at_vmod v i : pivot_at (vmod v p) i -> is_piv p (vget v) i.
Proof.
  pose proof (prime_ge_2 p Hp). intros (_ & H1 & H2). split.
  - intros C. apply H1. rewrite vget_vmod. apply (z_iff p) in C; auto. lia.
  - intros j Hj. apply (z_iff p); [lia|]. rewrite <- vget_vmod. auto.
Qed.

Theorem local_lift_total_gen :
  (forall g, (g < length rows)%nat -> nth g radii 0 < max_rad /\ cycle_at p Ds Rs deg (nth g radii 0) (vget (nth g rows [])) \/
     forall i, cong p (vget (nth g rows []) i) 0) ->
  exists o, first_page_local_lift S n deg w rows radii k = Ok o.
Proof.
  intros Hcyc. destruct bases_shape as (D1 & D2 & L1 & L2 & N1 & N2 & F1 & F2).
  destruct (Nat.eq_dec (length radii) 0) as [Hr0|Hr0].
  { unfold first_page_local_lift. rewrite Hr0. cbn. eauto. }
  destruct (Nat.eq_dec (b_dim im + b_dim hom) 0) as [H0|H0].
  { unfold first_page_local_lift. destruct (Nat.eqb_spec (length radii) 0); [lia|]. rewrite Hl. cbn [bind].
    rewrite im0_ok, hom0_ok. cbn [bind]. replace (b_dim im) with 0%nat by lia. replace (b_dim hom) with 0%nat by lia. cbn. eauto. }
  rewrite (local_lift_core S n deg w rows radii k l im hom Hl im0_ok hom0_ok); auto; [|intros ->; apply Hr0; reflexivity|lia].
  rewrite HSp. rewrite D1.
  destruct (out_ok rnd p max_rad n0 Ds Rs out Hp VC Hout deg Hd) as (ims & gens & HO & IO & Hh & Hi & _).
  fold im in Hi. fold hom in Hh. pose proof Hh as (A1 & A2 & A3 & _). pose proof Hi as (B1 & B2 & B3 & _).
  apply lift_core_total; auto.
  - unfold births. rewrite !app_length, !map_length. lia.
  - (* equal pivots, equal columns *)
    rewrite A2, B2.
    assert (Hall : forall v i, In v (map gvec ims ++ map snd gens) -> pivot_at (vmod v p) i -> i = npiv v).
    { intros v i Hv Hpv. apply pivot_at_vmod in Hpv. apply (is_piv_unique p (vget v)); auto. apply in_app_or in Hv.
      destruct Hv as [Hv|Hv]; apply in_map_iff in Hv; destruct Hv as (g & <- & Hg); apply (npiv_piv p).
      - apply (io_rng _ _ _ _ _ _ IO g Hg).
      - apply (io_nz _ _ _ _ _ _ IO g Hg).
      - apply (ho_rng _ _ _ _ _ _ _ HO g Hg).
      - apply (ho_nz _ _ _ _ _ _ _ HO g Hg). }
    assert (Hmix : forall h g, In h ims -> In g gens -> npiv (gvec h) = npiv (snd g) -> gvec h = snd g).
    { intros h g Hhi Hg E. pose proof (ho_disj _ _ _ _ _ _ _ HO g h Hg Hhi (eq_sym E)) as Edeath.
      destruct (io_bar _ _ _ _ _ _ IO h Hhi) as ((_ & Hlt) & _).
      destruct (ho_fin _ _ _ _ _ _ _ HO g Hg ltac:(lia)) as (h' & Hh' & E1 & _).
      rewrite (NoDup_map_eq _ _ h h' (io_nodup _ _ _ _ _ _ IO) Hhi Hh'); auto. rewrite E1. auto. }
    intros a b i Ha Hb Pa Pb. set (L := map gvec ims ++ map snd gens) in *.
    pose proof (nth_In L [] Ha) as Ia. pose proof (nth_In L [] Hb) as Ib.
    assert (En : npiv (nth a L []) = npiv (nth b L [])) by (rewrite <- (Hall _ _ Ia Pa), <- (Hall _ _ Ib Pb); reflexivity).
    f_equal. apply in_app_or in Ia. apply in_app_or in Ib.
    destruct Ia as [Ia|Ia], Ib as [Ib|Ib]; apply in_map_iff in Ia; apply in_map_iff in Ib; destruct Ia as (x & Ex & Hx), Ib as (y & Ey & Hy); rewrite <- Ex, <- Ey in En |- *.
    + rewrite (NoDup_map_eq _ _ x y (io_nodup _ _ _ _ _ _ IO) Hx Hy); auto.
    + apply Hmix; auto.
    + symmetry. apply Hmix; auto.
    + rewrite (NoDup_map_eq _ _ x y (ho_nodup _ _ _ _ _ _ _ HO) Hx Hy); auto.
  - intros g Hg. destruct (Hcyc g Hg) as [[Hlt Hc]|Hz].
    2:{ exists (fun _ => 0), (fun _ => 0). split; [auto|]. split; [auto|]. intros i. rewrite Hz, !Zsum_0 by (intros; ring). reflexivity. }
    set (r := nth g radii 0) in *.
    pose proof (ho_span _ _ _ _ _ _ _ HO r _ Hlt Hc) as Hs. apply span_union in Hs. destruct Hs as (a & b & Ha & Hb & E).
    assert (Ha' : span p (fam (b_dim hom) (fun h => bbirth (b_bars hom) h <=? r) (colv (b_coords hom))) a).
    { revert Ha. apply span_mono. intros u (x & Hx & Hal & ->). destruct (holds_in _ _ _ _ _ _ x Hh Hx) as (h & Hk & _ & Eb & Ec).
      exists h. split; [lia|]. split; [|auto]. unfold bbirth. rewrite Eb. apply Z.leb_le. lia. }
    assert (Hb' : span p (fam (b_dim im) (fun h => bbirth (b_bars im) h <=? r) (colv (b_coords im))) b).
    { revert Hb. apply span_mono. intros u (x & Hx & Hal & ->). destruct (holds_in _ _ _ _ _ _ x Hi Hx) as (h & Hk & _ & Eb & Ec).
      exists h. split; [lia|]. split; [|auto]. unfold bbirth. rewrite Eb. apply Z.leb_le. auto. }
    apply span_lc in Ha'. apply span_lc in Hb'. destruct Ha' as (c' & Hc' & Ec'). destruct Hb' as (c & Hc0 & Ec).
    exists c, c'. rewrite <- D1, <- D2. split; [|split].
    + intros a0 Hr. apply Hc0. destruct (Nat.lt_ge_cases a0 (b_dim im)) as [X|X]; [left|right; auto].
      rewrite births_nth_im in Hr by auto. apply Z.leb_gt. auto.
    + intros h Hr. apply Hc'. destruct (Nat.lt_ge_cases h (b_dim hom)) as [X|X]; [left|right; auto].
      rewrite births_nth_hom in Hr by auto. apply Z.leb_gt. auto.
    + intros i. rewrite (E i). unfold fadd. rewrite (Ec' i), (Ec i). unfold lc. rewrite Z.add_comm. reflexivity.
Qed.

Theorem local_lift_total :
  (forall g, (g < length rows)%nat -> nth g radii 0 < max_rad /\ cycle_at p Ds Rs deg (nth g radii 0) (vget (nth g rows []))) ->
  exists o, first_page_local_lift S n deg w rows radii k = Ok o.
Proof. intros H. apply local_lift_total_gen. auto. Qed.
End PHLift.
