(** * [first_page_lift] *)
From Verif Require Import Base ListX SortX Lin Gauss_model Gauss_arith Gauss_col Gauss_solve Gauss_rad Basis_model PH_model PH_lin PH_step PH_props Simp_model Spec_Simp Simp_lists Simp_diff Simp_props
  Spec_PH Spec_Rips Rips_bd Rips_chain Rips_props LC_model Spec_LC LC_props SS_model Spec_SS SS_inv SS_page SS_cech SS_lift SS_zig SS_first.
From Coq Require Import Sorted Permutation Znumtheory.
Local Open Scope Z_scope.

Local Notation e0 := (LEntry [] LNil).

(** Chains [PreIm * gammas] over the references [refs]. *)
Definition plain_lift (pre gammas : mat) (refs : list nat) : lentry :=
  LEntry refs (LMat (nrows pre) (cols (mmul pre gammas))).

Lemma plain_lift_ok pre gammas refs : increasing refs -> ncols gammas = length refs ->
  good_entry (nrows pre) (plain_lift pre gammas refs) /\
  (forall g x, ~ In g refs -> at_entry (plain_lift pre gammas refs) g x = 0) /\
  (forall i x, (i < length refs)%nat -> (x < nrows pre)%nat -> at_entry (plain_lift pre gammas refs) (nth i refs 0%nat) x
     = Zsum (ncols pre) (fun a => get pre x a * get gammas a i)) /\
  forall g x, (nrows pre <= x)%nat -> at_entry (plain_lift pre gammas refs) g x = 0.
Proof.
  intros Hi Hc. assert (HG : good_entry (nrows pre) (plain_lift pre gammas refs)).
  { split; cbn [le_ref le_coord plain_lift]; [auto|]. split; [reflexivity|]. unfold mmul. cbn [cols]. rewrite map_length. split; [exact Hc|].
    apply Forall_forall. intros v Hv. apply in_map_iff in Hv. destruct Hv as (u & <- & _). apply mvmul_length. }
  split; [auto|]. split; [|split].
  - intros g x Hno. unfold at_entry. cbn [le_ref plain_lift]. rewrite find_idx_notin by auto. reflexivity.
  - intros i x Hil Hx. unfold at_entry. cbn [le_ref le_coord lrows plain_lift]. rewrite find_idx_nth by (auto; apply increasing_NoDup; auto).
    unfold mmul. cbn [cols]. unfold ncols in Hc. rewrite (@nth_map vec vec (mvmul pre) (cols gammas) i []) by lia. rewrite vget_mvmul by auto. reflexivity.
  - intros g x Hx. apply (good_entry_out (nrows pre)); auto.
Qed.

Lemma rips_le Dist d r r' s : r <= r' -> rips Dist d r s -> rips Dist d r' s.
Proof. intros Hr [(H1 & H2 & H3 & H4) H0]. split; [|lia]. split; [auto|]. split; [auto|]. split; [auto|]. intros; eapply Z.le_trans; [apply H4; eauto|auto]. Qed.

Lemma Zsum_nz_mod q n f : 0 < q -> Zsum n f mod q <> 0 -> exists a, (a < n)%nat /\ f a mod q <> 0.
Proof.
  intros Hq. induction n as [|n IH]; cbn [Zsum]; [rewrite Zmod_0_l; congruence|]. intros H.
  destruct (Z.eq_dec (f n mod q) 0) as [E|E]; [|exists n; auto].
  destruct IH as (a & Ha & Hne); [|exists a; auto]. intros E'. apply H. rewrite Zplus_mod, E, E'. apply Zmod_0_l.
Qed.

(** A zero column is not changed by [gauss_col_rad]. *)
Lemma gauss_col_rad_zero A Rd s q Red T j : wf_mat A -> 2 <= q -> (ncols A <= length Rd)%nat -> gauss_col_rad A Rd s q = Ok (Red, T) -> (s <= j < ncols A)%nat ->
  (forall i, get A i j mod q = 0) -> col T j = vunit (ncols A) j.
Proof.
  intros HA Hq HR E Hj Hz. unfold gauss_col_rad in E. destruct (Nat.ltb_spec (length Rd) (ncols A)); [lia|]. change (combine (combine (cols (mmod A q)) (cols (mident (ncols A)))) Rd) with (rad_all A Rd q) in E.
  destruct (rad_for _ _ _ _) as [out|] eqn:EF; [|discriminate]. cbn [bind] in E. injection E as _ <-.
  apply rad_for_spec in EF; auto. rewrite skipn_length, rad_all_length in EF by auto. destruct EF as [EL EF].
  rewrite col_map_snd. unfold dcol.
  assert (L : length (map fst (firstn s (rad_all A Rd q))) = s) by (rewrite map_length, firstn_length, rad_all_length by auto; lia).
  rewrite app_nth2, L by lia. specialize (EF (j - s)%nat ltac:(lia)). rewrite skipn_rad_nth in EF by (auto; lia).
  replace (s + (j - s))%nat with j in EF by lia.
  rewrite (proj1 (vany_pivot (vmod (col A j) q))) in EF by (apply vany_false; intros i; rewrite vget_vmod; apply Hz).
  cbn in EF. injection EF as EF. rewrite <- EF. reflexivity.
Qed.

Lemma lift_core_zero q w imc homc rads rows radii gammas betas i a : 2 <= q -> Forall (fun v => length v = w) imc -> Forall (fun v => length v = w) homc -> Forall (fun v => length v = w) rows ->
  length rads = length (imc ++ homc) -> length radii = length rows -> lift_core q w (length imc) imc homc rads rows radii = Ok (Some (gammas, betas)) -> (i < length rows)%nat ->
  (forall j, vget (nth i rows []) j mod q = 0) -> get gammas a i = 0 /\ get betas a i = 0.
Proof.
  intros Hq F1 F2 F3 HR1 HR2 E Hi Hz. unfold lift_core in E.
  destruct (gauss_col_rad _ _ _ _) as [[Red T]|] eqn:EG; [|discriminate]. cbn [bind] in E. injection E as <- <-.
  unfold vec in *. set (A := Mat w ((imc ++ homc) ++ rows)) in *. set (s := length (imc ++ homc)) in *.
  assert (HA : wf_mat A) by (unfold wf_mat, A; cbn [cols nrows]; repeat (apply Forall_app; split); auto).
  assert (NA : ncols A = (s + length rows)%nat) by (unfold ncols, A; cbn [cols]; rewrite app_length; reflexivity).
  assert (HL : (ncols A <= length (rads ++ radii))%nat) by (rewrite app_length; lia).
  destruct (gauss_col_rad_shape A _ s q HA Hq HL Red T EG) as (_ & _ & _ & CT & _).
  assert (EC : col T (s + i) = vunit (ncols A) (s + i)).
  { apply (gauss_col_rad_zero A (rads ++ radii) s q Red T); auto; [lia|]. intros j. unfold get, col, A. cbn [cols]. rewrite app_nth2 by (unfold s; lia).
    unfold s. replace (length (imc ++ homc) + i - length (imc ++ homc))%nat with i by lia. apply Hz. }
  assert (LT : length (skipn s (cols T)) = length rows) by (rewrite skipn_length; change (length (cols T)) with (ncols T); rewrite CT, NA; lia).
  unfold get, col. cbn [cols].
  assert (Ls : (length imc <= s)%nat) by (unfold s; rewrite app_length; lia).
  split.
  2:{ rewrite (@nth_map vec vec (fun c => skipn (length imc) (firstn s c)) _ i []) by (rewrite map_length; unfold vec in *; rewrite LT; exact Hi).
    rewrite vget_skipn, vget_firstn. destruct (Nat.ltb_spec (length imc + a) s) as [Ha|]; [|reflexivity].
    rewrite (@nth_map vec vec (map (fun x => (- x) mod q)) _ i []) by (unfold vec in *; rewrite LT; exact Hi).
    rewrite vget_negmod, nth_skipn. change (nth (s + i) (cols T) []) with (col T (s + i)). rewrite EC, vget_vunit by lia.
    destruct (Nat.eqb_spec (length imc + a) (s + i)); [lia|]. reflexivity. }
  rewrite (@nth_map vec vec (firstn (length imc)) _ i []) by (rewrite map_length; unfold vec in *; rewrite LT; exact Hi).
  rewrite vget_firstn. destruct (Nat.ltb_spec a (length imc)) as [Ha|]; [|reflexivity].
  rewrite (@nth_map vec vec (map (fun x => (- x) mod q)) _ i []) by (unfold vec in *; rewrite LT; exact Hi).
  rewrite vget_negmod, nth_skipn. change (nth (s + i) (cols T) []) with (col T (s + i)). rewrite EC, vget_vunit by lia.
  destruct (Nat.eqb_spec a (s + i)); [lia|]. reflexivity.
Qed.

Section FPLift.
Variables (argsort : list Z -> list nat) (rnd : Z -> Z) (Dist : list (list Z)) (max_r max_dim p : Z)
  (IN : list (list (list nat))) (n0 : nat) (nerve : list (list simplex)).
Hypothesis HI : mv_input argsort Dist max_r max_dim p IN n0 nerve.
Variable S : ss.
Hypothesis PO : page_ok argsort rnd Dist max_r max_dim p IN n0 nerve S.
Let m := Z.to_nat max_dim.
Let lev n := level n0 nerve n.
Let loc := loc_of S.
Local Notation G := (simplices IN S).
Local Notation widths := (sizes IN n0 nerve S).
Local Notation vbd := (local_bd IN S).
Local Notation dims := (dims n0 nerve S).
Local Notation before := (before n0 nerve S).
Let Hp := mv_prime _ _ _ _ _ _ _ _ HI.

Lemma Hp1' : 1 < p.
Proof. pose proof (prime_ge_2 _ Hp). lia. Qed.

Lemma nth_cap_nil n deg k : (n < length nerve)%nat -> (k < length (lev n))%nat -> (deg <= m)%nat ->
  b_bars (hom_of S n k deg) = [] -> b_bars (im_of S n k deg) = [] ->
  forall r v, r < max_r -> local_cycle p Dist IN S n deg k r v -> forall j, cong p (v j) 0.
Proof.
  intros Hn Hk Hd Eh Ei r v Hr Hv j. destruct (loc_ok _ _ _ _ _ _ _ _ _ S PO n k Hn Hk) as [Rs OK].
  pose proof (lo_Ds _ _ _ _ _ _ _ _ OK) as LD.
  destruct (out_ok rnd p max_r _ _ Rs _ Hp (lo_valid _ _ _ _ _ _ _ _ OK) (lo_ph _ _ _ _ _ _ _ _ OK) deg ltac:(rewrite LD; exact Hd)) as (ims & gens & HO & IO & Hh & Hi & _).
  destruct Hh as (A & _). destruct Hi as (B & _). unfold hom_of in Eh. unfold im_of in Ei. rewrite Eh in A. rewrite Ei in B.
  symmetry in A, B. apply map_eq_nil in A. apply map_eq_nil in B. subst gens ims.
  apply (cycle_iff _ _ _ _ _ _ _ _ _ HI S PO n k Hn Hk Rs OK deg r v Hd) in Hv.
  destruct (ho_span _ _ _ _ _ _ _ HO r v Hr Hv) as [u Hu|u u' w a [(g & [] & _)|(g & [] & _)]]. apply Hu.
Qed.

Section Local.
Variables (n deg : nat) (start : chains) (R : list Z).
Hypothesis Hn : (n < length nerve)%nat.
Hypothesis Hd : (deg < m)%nat.
Hypothesis Hg : good (widths n deg) start.
Hypothesis HR : forall s g, In g (le_ref (nth s start e0)) -> (g < length R)%nat.
Hypothesis Hlt : forall g, (g < length R)%nat -> nth g R 0 < max_r \/ forall k j, cong p (value start k g j) 0.
Hypothesis Hcyc : forall k g, (k < length (lev n))%nat -> (g < length R)%nat -> local_cycle p Dist IN S n deg k (nth g R 0) (value start k g).

(** What the local lift over the [k]-th simplex gives. *)
Definition local_out (k : nat) (o : option (mat * mat)) : Prop :=
  let H := hom_of S n k deg in let I := im_of S n k deg in let refs := le_ref (nth k start e0) in
  match o with
  | None => forall g j, (g < length R)%nat -> cong p (value start k g j) 0
  | Some (gammas, betas) =>
      increasing refs /\ nrows gammas = length (b_bars I) /\ nrows betas = length (b_bars H) /\
      ncols gammas = length refs /\ ncols betas = length refs /\ (forall h i, 0 <= get betas h i < p) /\
      forall i, (i < length refs)%nat -> let g := nth i refs 0%nat in
        (forall a, get gammas a i <> 0 -> (a < length (b_bars I))%nat /\ bbirth (b_bars I) a <= nth g R 0) /\
        (forall h, get betas h i <> 0 -> (h < length (b_bars H))%nat /\ bbirth (b_bars H) h <= nth g R 0 /\ (nth g R 0 < bdeath (b_bars H) h \/ max_r <= bdeath (b_bars H) h)) /\
        (forall j, cong p (value start k g j)
          (Zsum (length (b_bars I)) (fun a => get gammas a i * get (b_coords I) j a)
           + Zsum (length (b_bars H)) (fun h => get betas h i * get (b_coords H) j h))) /\
        ((forall j, cong p (value start k g j) 0) -> (forall a, get gammas a i = 0) /\ forall h, get betas h i = 0)
  end.

Lemma local_out_ok k : (k < length (lev n))%nat ->
  exists o, (e <- nth_err start k ;;
        if Nat.ltb 0 (length (le_ref e)) then
          radii <- take_err R (le_ref e) ;;
          match le_coord e with
          | LNil => Err ValueError
          | LMat w rows => first_page_local_lift S n deg w rows radii k
          end
        else Ok None) = Ok o /\ local_out k o.
Proof.
  intros Hk. assert (Lw : length (widths n deg) = length (lev n)) by (unfold sizes; rewrite map_length, seq_length; reflexivity).
  assert (Ls : length start = length (lev n)) by (rewrite (good_length _ _ Hg); auto).
  rewrite (nth_err_nth start k e0) by lia. cbn [bind].
  pose proof (good_nth _ _ k Hg ltac:(lia)) as He. rewrite sizes_nth in He by exact Hk.
  set (e := nth k start e0) in *. destruct He as [Hinc He].
  destruct (Nat.ltb_spec 0 (length (le_ref e))) as [H0|H0].
  2:{ exists None. split; [reflexivity|]. intros g j _. unfold value. fold e. unfold at_entry.
      destruct (le_ref e); [reflexivity|simpl in H0; lia]. }
  rewrite (take_err_pure R (le_ref e) 0) by (intros g Hin; apply (HR k g Hin)). cbn [bind].
  destruct (le_coord e) as [|w rows] eqn:Ecoord; [rewrite He in H0; simpl in H0; lia|]. destruct He as (-> & Lrows & Frows).
  destruct (loc_ok _ _ _ _ _ _ _ _ _ S PO n k Hn Hk) as [Rs OK]. fold (loc n k) in OK.
  pose proof (lo_Ds _ _ _ _ _ _ _ _ OK) as LD. fold m in LD.
  pose proof (the_local_ok _ _ _ _ _ _ _ _ _ _ PO n k Hn Hk) as El. fold (loc n k) in El.
  rewrite <- (csize_G _ _ _ _ _ _ _ n k Rs OK deg) in Frows |- *.
  set (radii := map (fun i => nth i R 0) (le_ref e)).
  assert (Hrad : forall i, (i < length (le_ref e))%nat -> nth i radii 0 = nth (nth i (le_ref e) 0%nat) R 0).
  { intros i Hi. unfold radii. rewrite (nth_map (fun i0 => nth i0 R 0) (le_ref e) i 0%nat) by auto. reflexivity. }
  assert (Hval : forall i j, (i < length (le_ref e))%nat -> value start k (nth i (le_ref e) 0%nat) j = vget (nth i rows []) j).
  { intros i j Hi. unfold value. fold e. unfold at_entry. rewrite Ecoord. cbn [lrows]. rewrite find_idx_nth by (auto; apply increasing_NoDup; auto). reflexivity. }
  destruct (local_lift_total_gen rnd p max_r _ _ Rs _ Hp (lo_valid _ _ _ _ _ _ _ _ OK) (lo_ph _ _ _ _ _ _ _ _ OK) S n k deg (loc n k) ltac:(lia)
    (po_p _ _ _ _ _ _ _ _ _ _ PO) El eq_refl rows radii Frows ltac:(unfold radii; rewrite map_length; lia)) as [o Eo].
  { intros i Hi. rewrite Lrows in Hi. rewrite Hrad by lia. set (g := nth i (le_ref e) 0%nat).
    assert (Hgr : (g < length R)%nat) by (apply (HR k); apply nth_In; auto).
    destruct (Hlt g Hgr) as [Hl|Hz]; [left|right; intros a; rewrite <- Hval by auto; apply Hz].
    split; [exact Hl|]. pose proof (Hcyc k g Hk Hgr) as H2. apply (cycle_iff _ _ _ _ _ _ _ _ _ HI S PO n k Hn Hk Rs OK deg) in H2; [|fold m; lia].
    destruct H2 as [X Y]. split.
    - intros a Ha. apply X. unfold g. rewrite Hval by auto. auto.
    - intros a. rewrite <- (Y a). f_equal. unfold bd_of. apply Zsum_ext. intros b _. unfold g. rewrite Hval by auto. reflexivity. }
  exists o. split; [exact Eo|].
  pose proof (local_lift_sound rnd p max_r _ _ Rs _ Hp (lo_valid _ _ _ _ _ _ _ _ OK) (lo_ph _ _ _ _ _ _ _ _ OK) S n k deg (loc n k) ltac:(lia)
    (po_p _ _ _ _ _ _ _ _ _ _ PO) El eq_refl rows radii Frows ltac:(unfold radii; rewrite map_length; lia) o Eo) as HS.
  change (nth deg (ph_hom (l_out (loc n k))) empty_basis) with (hom_of S n k deg) in HS.
  change (nth deg (ph_im (l_out (loc n k))) empty_basis) with (im_of S n k deg) in HS.
  unfold local_out. destruct o as [[gammas betas]|].
  - destruct HS as (N1 & N2 & C1 & C2 & _ & Rb & HS). fold e. split; [auto|]. split; [auto|]. split; [auto|]. split; [lia|]. split; [lia|]. split; [auto|].
    intros i Hi. destruct (HS i ltac:(lia)) as (T1 & T2 & T3). rewrite Hrad in T1, T2 by auto. split; [exact T1|]. split; [exact T2|].
    split; [intros j; rewrite Hval by auto; apply T3|]. intros Hz. enough (HZ : forall a, get gammas a i = 0 /\ get betas a i = 0) by (split; intros a; apply (HZ a)). intros a.
    assert (Hd0 : (get gammas a i = 0 /\ get betas a i = 0) \/ (0 < length (b_bars (im_of S n k deg)) + length (b_bars (hom_of S n k deg)))%nat).
    { destruct (Z.eq_dec (get gammas a i) 0) as [E0|Hne]; [|right; destruct (T1 a Hne); lia]. destruct (Z.eq_dec (get betas a i) 0) as [E1|Hne]; [left; auto|right; destruct (T2 a Hne); lia]. }
    destruct Hd0 as [Hd0|Hd0]; [exact Hd0|].
    destruct (bases_shape rnd p max_r _ _ Rs _ Hp (lo_valid _ _ _ _ _ _ _ _ OK) (lo_ph _ _ _ _ _ _ _ _ OK) deg ltac:(lia)) as (D1 & D2 & L1 & L2 & M1 & M2 & F1 & F2).
    pose proof (im0_ok rnd p max_r _ _ Rs _ Hp (lo_valid _ _ _ _ _ _ _ _ OK) (lo_ph _ _ _ _ _ _ _ _ OK) deg (loc n k) ltac:(lia) eq_refl rows radii ltac:(unfold radii; rewrite map_length; lia)) as Ei.
    pose proof (hom0_ok rnd p max_r _ _ Rs _ Hp (lo_valid _ _ _ _ _ _ _ _ OK) (lo_ph _ _ _ _ _ _ _ _ OK) deg (loc n k) ltac:(lia) eq_refl rows radii ltac:(unfold radii; rewrite map_length; lia)) as Eh.
    change (nth deg (ph_hom (l_out (loc n k))) empty_basis) with (hom_of S n k deg) in *.
    change (nth deg (ph_im (l_out (loc n k))) empty_basis) with (im_of S n k deg) in *.
    rewrite (local_lift_core S n deg _ rows radii k _ _ _ El Ei Eh) in Eo; auto; [|intros X; apply (f_equal (@length Z)) in X; unfold radii in X; rewrite map_length in X; cbn [length] in X; lia|lia].
    rewrite (po_p _ _ _ _ _ _ _ _ _ _ PO), D1 in Eo. assert (Hi2 : (i < length rows)%nat) by (rewrite Lrows; exact Hi). refine (lift_core_zero _ _ _ _ _ _ _ _ _ i a _ F1 F2 Frows _ _ Eo Hi2 _).
    + pose proof (prime_ge_2 _ Hp). lia.
    + unfold births. rewrite !app_length, !map_length. rewrite L1, L2, D1, D2. reflexivity.
    + unfold radii. rewrite map_length. symmetry. exact Lrows.
    + intros j. rewrite <- Hval by auto. transitivity (0 mod p); [|apply Zmod_0_l]. apply (cong_iff_mod p); [pose proof (prime_ge_2 _ Hp); lia|]. apply Hz.
  - destruct HS as [->|[E1 E2]]; [simpl in Lrows; lia|]. intros g j Hgr. destruct (Hlt g Hgr) as [Hl|Hz]; [|apply Hz].
    apply (nth_cap_nil n deg k Hn Hk ltac:(lia) E2 E1 (nth g R 0)); auto.
Qed.
End Local.

Lemma page_dim_ok n deg : (n < length nerve)%nat -> (deg < m)%nat -> page_dim1 S n deg = Ok (list_sum (dims n deg)).
Proof.
  intros Hn Hd. destruct (Nat.eq_dec (length (lev n)) 0) as [Hl0|Hl0].
  - unfold page_dim1. rewrite (nth_err_nth (s_cols S) n no_column) by (rewrite (po_cols _ _ _ _ _ _ _ _ _ _ PO); lia). cbn [bind].
    pose proof (po_col _ _ _ _ _ _ _ _ _ _ PO n ltac:(lia)) as E. pose proof (po_count _ _ _ _ _ _ _ _ _ _ PO n ltac:(lia)) as L.
    cbv beta in L, E. fold (lev n) in L, E. rewrite Hl0 in L. apply length_zero_iff_nil in L. rewrite L, add_output_first_nil in E. injection E as E.
    rewrite <- E. cbn [c_dim]. rewrite (nth_err_nth _ deg 0%nat) by (rewrite repeat_length; auto). rewrite nth_repeat.
    unfold SS_zig.dims. fold (lev n). rewrite Hl0. reflexivity.
  - apply (cyc_ok _ _ _ _ _ _ _ _ _ HI S PO n deg Hn); auto. intros X. apply Hl0. fold (lev n) in X. rewrite X. reflexivity.
Qed.

Theorem first_page_lift_gen n deg start R : (n < length nerve)%nat -> (deg < m)%nat ->
  good (widths n deg) start ->
  (forall s g, In g (le_ref (nth s start e0)) -> (g < length R)%nat) ->
  (forall g, (g < length R)%nat -> nth g R 0 < max_r \/ forall k j, cong p (value start k g j) 0) ->
  (forall k g, (k < length (lev n))%nat -> (g < length R)%nat -> local_cycle p Dist IN S n deg k (nth g R 0) (value start k g)) ->
  (R <> [] -> lev n <> []) ->
  exists B lifts, first_page_lift S n deg start R = Ok (B, lifts) /\
    nrows B = length R /\ ncols B = list_sum (dims n deg) /\ wf_mat B /\ (forall g h, 0 <= get B g h < p) /\
    good (widths n (Datatypes.S deg)) lifts /\
    (forall k g, In g (le_ref (nth k lifts e0)) -> (g < length R)%nat) /\
    forall k g, (k < length (lev n))%nat -> (g < length R)%nat ->
      let H := hom_of S n k deg in
      local_chain p Dist IN S n (Datatypes.S deg) k (nth g R 0) (value lifts k g) /\
      (forall h, (h < length (b_bars H))%nat -> get B g (before n deg k + h) <> 0 -> bbirth (b_bars H) h <= nth g R 0 /\ (nth g R 0 < bdeath (b_bars H) h \/ max_r <= bdeath (b_bars H) h)) /\
      (forall j, cong p (value start k g j)
        (vbd n deg k (value lifts k g) j + Zsum (length (b_bars H)) (fun h => get B g (before n deg k + h) * get (b_coords H) j h))) /\
      ((forall j, cong p (value start k g j) 0) -> (forall x, value lifts k g x = 0) /\ forall h, (h < length (b_bars H))%nat -> get B g (before n deg k + h) = 0).
Proof.
  intros Hn Hd Hg HR Hlt Hcyc Hlev. unfold first_page_lift. rewrite (spx_ok _ _ _ _ _ _ _ _ _ _ PO n) by lia. cbn [bind]. fold (lev n).
  pose proof Hp1' as Hp1. rewrite (page_dim_ok n deg) by auto. cbn [bind].
  destruct (Nat.eqb_spec (length R) 0) as [HR0|HR0].
  { assert (R = []) as -> by (apply length_zero_iff_nil; auto).
    do 2 eexists. split; [reflexivity|]. cbn [nrows]. split; [reflexivity|]. split; [unfold ncols; cbn [cols]; rewrite repeat_length; reflexivity|].
    split; [unfold wf_mat; cbn [cols nrows]; apply Forall_forall; intros v Hv; apply repeat_spec in Hv; subst v; reflexivity|].
    split; [intros g h; apply get_nil_rows; lia|].
    split; [replace (length (lev n)) with (length (widths n (Datatypes.S deg))) by (unfold sizes; rewrite map_length, seq_length; reflexivity); apply good_empty|].
    split; [intros k g Hin; unfold empty_chains in Hin; destruct (nth_in_or_default k (repeat e0 (length (lev n))) e0) as [X|X];
            [apply repeat_spec in X; rewrite X in Hin; destruct Hin|rewrite X in Hin; destruct Hin]|].
    intros k g Hk Hg0. cbn [length] in Hg0. lia. }
  assert (Hlev' : lev n <> []) by (apply Hlev; intros ->; apply HR0; reflexivity).
  destruct (cyc_ok _ _ _ _ _ _ _ _ _ HI S PO n deg ltac:(lia) Hlev' Hd) as [Ecyc _].
  assert (Ls : length start = length (lev n)) by (rewrite (good_length _ _ Hg); unfold sizes; rewrite map_length, seq_length; reflexivity).
  match goal with |- context [mapM ?f _] => set (floc := f) end.
  destruct (mapM_index floc (fun k o => local_out n deg start R k o) 0%nat None (seq 0 (length (lev n)))) as (output & Eout & Lout & Nout).
  { intros i Hi. rewrite seq_length in Hi. rewrite seq_nth by auto. apply local_out_ok; auto. }
  rewrite seq_length in Lout, Nout. rewrite Eout. cbn [bind]. rewrite Ecyc. cbn [bind]. rewrite removelast_cyc. rewrite dims_length. fold (lev n).
  set (refs := fun k => le_ref (nth k start e0)).
  set (pre := fun k => nth (1 + deg) (ph_preim (l_out (loc n k))) (Mat 0 [])).
  set (blk := fun k => match nth k output None with Some (_, b) => cols (scatter_rows (length R) (refs k) b) | None => repeat (vzero (length R)) (nth k (dims n deg) 0%nat) end).
  set (ent := fun k => match nth k output None with Some (g, _) => if Nat.ltb 0 (nrows g) then plain_lift (pre k) g (refs k) else e0 | None => e0 end).
  assert (Hbdim : forall k, (k < length (lev n))%nat -> nth k (dims n deg) 0%nat = length (b_bars (hom_of S n k deg))).
  { intros k Hk. rewrite dims_nth by auto. apply (hom0_of _ _ _ _ _ _ _ _ _ HI S PO n k deg ltac:(lia) Hk ltac:(unfold m in Hd; lia)). }
  assert (Hpre : forall k, (k < length (lev n))%nat -> the_local S n k = Ok (loc n k) /\ preim0 (loc n k) (1 + deg) = Ok (pre k) /\
     ncols (pre k) = length (b_bars (im_of S n k deg)) /\ nrows (pre k) = length (G n k (Datatypes.S deg)) /\
     forall a, (a < length (b_bars (im_of S n k deg)))%nat ->
       local_chain p Dist IN S n (Datatypes.S deg) k (bbirth (b_bars (im_of S n k deg)) a) (colv (pre k) a) /\
       forall j, cong p (vbd n deg k (colv (pre k) a) j) (get (b_coords (im_of S n k deg)) j a)).
  { intros k Hk. destruct (loc_ok _ _ _ _ _ _ _ _ _ S PO n k ltac:(lia) Hk) as [Rs OK]. fold (loc n k) in OK.
    pose proof (lo_Ds _ _ _ _ _ _ _ _ OK) as LD. fold m in LD.
    split; [apply (the_local_ok _ _ _ _ _ _ _ _ _ _ PO n k ltac:(lia) Hk)|].
    destruct (ph_lengths rnd p max_r _ _ Rs _ Hp (lo_valid _ _ _ _ _ _ _ _ OK) (lo_ph _ _ _ _ _ _ _ _ OK)) as (_ & _ & LP).
    split; [unfold preim0; apply nth_err_nth; lia|].
    destruct (C22_aux rnd p max_r _ _ Rs _ Hp (lo_valid _ _ _ _ _ _ _ _ OK) (lo_ph _ _ _ _ _ _ _ _ OK) deg ltac:(lia)) as (P1 & _ & P3 & P4 & _).
    cbv zeta in P1, P3, P4. change (nth (Datatypes.S deg) (ph_preim (l_out (loc n k))) (Mat 0 [])) with (pre k) in P1, P3, P4.
    change (nth deg (ph_im (l_out (loc n k))) empty_basis) with (im_of S n k deg) in P1, P3, P4.
    split; [exact P1|]. split; [rewrite P3; apply (csize_G _ _ _ _ _ _ _ n k Rs OK)|].
    intros a Ha. destruct (P4 a Ha) as (_ & Hch & Hbd). split.
    - apply (chain_iff _ _ _ _ _ _ _ _ _ HI S PO n k ltac:(lia) Hk Rs OK); [fold m; lia|]. exact Hch.
    - intros j. rewrite <- (bd_G _ _ _ _ _ _ _ n k Rs OK deg). apply cong_iff_mod; [lia|]. apply Hbd. }
  assert (HRk : forall k g, In g (refs k) -> (g < length R)%nat) by (intros k g; apply HR).
  assert (Hblk : forall k, (k < length (lev n))%nat -> length (blk k) = nth k (dims n deg) 0%nat).
  { intros k Hk. unfold blk. specialize (Nout k Hk). destruct (nth k output None) as [[gm bt]|]; [|apply repeat_length].
    destruct Nout as (Hinc & _ & N2 & _). fold (refs k) in Hinc. destruct (scatter_ok (length R) (refs k) bt Hinc (HRk k)) as (_ & S2 & _).
    unfold ncols in S2. rewrite S2, N2, Hbdim; auto. }
  match goal with |- context [foldM ?f _ _] => set (step := f) end.
  destruct (fold_blocks (fun b l pr => (b, l, pr)) step blk ent (dims n deg) (length (lev n)) ltac:(apply dims_length)) as (lifts & Ef & Ll & Nl).
  { intros k bl lf prev Hk _ HL Hf. unfold step. cbn [fst snd]. rewrite (nth_err_nth output k None) by lia. cbn [bind].
    rewrite (nth_err_nth start k e0) by lia. cbn [bind]. replace (prev + nth k (dims n deg) 0 - prev)%nat with (nth k (dims n deg) 0%nat) by lia.
    specialize (Nout k Hk). specialize (Hblk k Hk). unfold blk, ent in *. destruct (nth k output None) as [[gm bt]|] eqn:Eo.
    2:{ exists lf. cbn [bind]. auto. }
    destruct Nout as (Hinc & N1 & N2 & C1 & C2 & _). fold (refs k) in *. rewrite Hbdim in Hblk |- * by auto.
    assert (Ebs : (if Nat.ltb 0 (nrows bt) then if Nat.eqb (nrows bt) (length (b_bars (hom_of S n k deg))) then Ok (cols (scatter_rows (length R) (refs k) bt)) else Err ValueError
                   else Ok (repeat (vzero (length R)) (length (b_bars (hom_of S n k deg))))) = Ok (cols (scatter_rows (length R) (refs k) bt))).
    { rewrite N2, Nat.eqb_refl. destruct (Nat.ltb_spec 0 (length (b_bars (hom_of S n k deg)))) as [|H0]; [reflexivity|].
      replace (length (b_bars (hom_of S n k deg))) with 0%nat in * by lia. f_equal. symmetry. apply length_zero_iff_nil. exact Hblk. }
    rewrite Ebs. cbn [bind]. destruct (Hpre k Hk) as (E1 & E2 & P1 & P2 & _).
    destruct (Nat.ltb_spec 0 (nrows gm)) as [H0|H0]; [|exists lf; cbn [bind]; auto].
    rewrite E1. cbn [bind]. rewrite E2. cbn [bind]. unfold matmul. rewrite P1, N1, Nat.eqb_refl. cbn [bind].
    destruct (proj2 (add_entry_ok lf k (refs k) (LMat (nrows (mmul (pre k) gm)) (cols (mmul (pre k) gm))) ltac:(lia))) as (l' & E' & L' & O' & N3 & _).
    { cbn [lrows mmul cols]. rewrite map_length. unfold ncols in C1. rewrite C1. reflexivity. }
    rewrite E'. cbn [bind]. exists l'. split; [reflexivity|]. split; [lia|]. split; [auto|]. rewrite N3 by discriminate. reflexivity. }
  rewrite Ef. cbn [bind].
  set (B := Mat (length R) (concat (map blk (seq 0 (length (lev n)))))). exists B, lifts.
  split; [reflexivity|]. split; [reflexivity|].
  split; [unfold ncols, B; cbn [cols]; apply length_concat_blocks; [apply dims_length|auto]|].
  assert (Hsc : forall k gm bt, (k < length (lev n))%nat -> nth k output None = Some (gm, bt) -> let M := scatter_rows (length R) (refs k) bt in
     (forall v, In v (cols M) -> length v = length R) /\
     (forall g h, ~ In g (refs k) -> get M g h = 0) /\
     (forall i h, (i < length (refs k))%nat -> (h < nrows bt)%nat -> get M (nth i (refs k) 0%nat) h = get bt h i) /\ forall g h, 0 <= get M g h < p).
  { intros k gm bt Hk Eo M. specialize (Nout k Hk). rewrite Eo in Nout. destruct Nout as (Hinc & _ & N2 & _ & _ & Rb & _). fold (refs k) in Hinc.
    destruct (scatter_ok (length R) (refs k) bt Hinc (HRk k)) as (_ & _ & S3 & S4 & S5 & S6). fold M in S3, S4, S5, S6.
    split; [rewrite Forall_forall in S3; auto|]. split; [auto|]. split; [auto|].
    intros g h. destruct (in_dec Nat.eq_dec g (refs k)) as [Hin|Hno]; [|rewrite S4 by auto; lia].
    apply (In_nth _ _ 0%nat) in Hin. destruct Hin as (i & Hi & <-). destruct (Nat.lt_ge_cases h (nrows bt)); [rewrite S5 by auto; apply Rb|rewrite S6 by auto; lia]. }
  assert (Hcolblk : forall k v, (k < length (lev n))%nat -> In v (blk k) -> length v = length R /\ forall g, 0 <= vget v g < p).
  { intros k v Hk Hv. unfold blk in Hv. destruct (nth k output None) as [[gm bt]|] eqn:Eo.
    - destruct (Hsc k gm bt Hk Eo) as (Z1 & _ & _ & Z2). split; [apply Z1; auto|]. intros g. apply (In_nth _ _ []) in Hv. destruct Hv as (h & Hh & <-). apply (Z2 g h).
    - apply repeat_spec in Hv. subst v. split; [apply repeat_length|]. intros g. unfold vget, vzero. rewrite nth_repeat. lia. }
  assert (HinB : forall v, In v (cols B) -> length v = length R /\ forall g, 0 <= vget v g < p).
  { intros v Hv. unfold B in Hv. cbn [cols] in Hv. apply in_concat in Hv. destruct Hv as (l & Hl & Hv). apply in_map_iff in Hl. destruct Hl as (k & <- & Hk).
    apply in_seq in Hk. apply (Hcolblk k v); auto. lia. }
  split; [unfold wf_mat; apply Forall_forall; intros v Hv; apply (HinB v Hv)|].
  split.
  { intros g h. unfold get, col. destruct (nth_in_or_default h (cols B) []) as [X|X]; [apply (HinB _ X)|rewrite X]. unfold vget. destruct g; cbn; lia. }
  assert (HBget : forall k g h, (k < length (lev n))%nat -> (h < length (b_bars (hom_of S n k deg)))%nat -> get B g (before n deg k + h) = vget (nth h (blk k) []) g).
  { intros k g h Hk Hh. unfold get, col, B. cbn [cols]. unfold SS_first.before. rewrite (nth_concat_blocks blk (dims n deg) (length (lev n))); auto; [apply dims_length|]. rewrite Hbdim; auto. }
  assert (Hent : forall k, (k < length (lev n))%nat -> good_entry (length (G n k (Datatypes.S deg))) (ent k) /\ (forall g, In g (le_ref (ent k)) -> In g (refs k))).
  { intros k Hk. specialize (Nout k Hk). unfold ent. destruct (nth k output None) as [[gm bt]|] eqn:Eo; [|split; [split; [constructor|reflexivity]|intros g []]].
    destruct (Nat.ltb 0 (nrows gm)); [|split; [split; [constructor|reflexivity]|intros g []]].
    destruct Nout as (Hinc & N1 & _ & C1 & _). destruct (Hpre k Hk) as (_ & _ & _ & P2 & _).
    split; [rewrite <- P2; apply plain_lift_ok; auto|]. intros g Hin. exact Hin. }
  split.
  { apply good_intro; [unfold sizes; rewrite map_length, seq_length; exact Ll|]. unfold sizes. rewrite map_length, seq_length. intros k Hk.
    rewrite nth_map_seq by auto. rewrite Nl by auto. apply (Hent k Hk). }
  split.
  { intros k g Hin. destruct (Nat.lt_ge_cases k (length (lev n))) as [Hk|Hk]; [rewrite Nl in Hin by auto; apply (HRk k), (Hent k Hk); auto|].
    rewrite nth_overflow in Hin by lia. destruct Hin. }
  intros k g Hk Hgr. specialize (Nout k Hk).
  assert (Hzero : forall e, at_entry e g = (fun _ => 0) -> local_chain p Dist IN S n (Datatypes.S deg) k (nth g R 0) (at_entry e g) /\ forall j, vbd n deg k (at_entry e g) j = 0).
  { intros e E. rewrite E. split; [intros x Hx; rewrite Zmod_0_l in Hx; congruence|]. intros j. unfold local_bd. apply Zsum_0. intros; ring. }
  assert (Ev : value lifts k g = at_entry (ent k) g) by (unfold value; rewrite Nl by auto; reflexivity). rewrite Ev.
  destruct (nth k output None) as [[gm bt]|] eqn:Eo.
  2:{ assert (Ee : ent k = e0) by (unfold ent; rewrite Eo; reflexivity). rewrite Ee. destruct (Hzero e0 eq_refl) as [Z1 Z2].
      assert (Eblk : forall h, vget (nth h (blk k) []) g = 0).
      { intros h. unfold blk. rewrite Eo. destruct (nth_in_or_default h (repeat (vzero (length R)) (nth k (dims n deg) 0%nat)) []) as [X|X].
        - apply repeat_spec in X. rewrite X. unfold vget, vzero. apply nth_repeat.
        - rewrite X. destruct g; reflexivity. }
      split; [exact Z1|]. split; [intros h Hh Hne; rewrite HBget, Eblk in Hne by auto; congruence|].
      split; [|intros _; split; [intros x; reflexivity|intros h Hh; rewrite HBget, Eblk by auto; reflexivity]].
      intros j. rewrite Z2. rewrite (Nout g j Hgr). apply cong_eq. rewrite Zsum_0; [reflexivity|]. intros h Hh. rewrite HBget, Eblk by auto. ring. }
  destruct Nout as (Hinc & N1 & N2 & C1 & C2 & Rb & HS). fold (refs k) in Hinc, C1, C2, HS. destruct (Hsc k gm bt Hk Eo) as (_ & S4 & S5 & _).
  assert (Eblk : blk k = cols (scatter_rows (length R) (refs k) bt)) by (unfold blk; rewrite Eo; reflexivity).
  assert (HB : forall h, (h < length (b_bars (hom_of S n k deg)))%nat -> get B g (before n deg k + h) = get (scatter_rows (length R) (refs k) bt) g h).
  { intros h Hh. rewrite HBget, Eblk by auto. reflexivity. }
  destruct (Hpre k Hk) as (_ & _ & P1 & P2 & P4). destruct (plain_lift_ok (pre k) gm (refs k) Hinc C1) as (_ & L2 & L3 & L4).
  destruct (in_dec Nat.eq_dec g (refs k)) as [Hin|Hno].
  2:{ assert (Ee : at_entry (ent k) g = (fun _ => 0)).
      { unfold at_entry. rewrite find_idx_notin; [reflexivity|]. intros Hin. apply Hno. apply (Hent k Hk). auto. }
      destruct (Hzero (ent k) Ee) as [Z1 Z2]. split; [exact Z1|]. split; [intros h Hh Hne; rewrite HB, S4 in Hne by auto; congruence|].
      split; [|intros _; split; [intros x; rewrite Ee; reflexivity|intros h Hh; rewrite HB, S4 by auto; reflexivity]].
      intros j. rewrite Z2. apply cong_eq. rewrite Zsum_0; [|intros h Hh; rewrite HB, S4 by auto; ring].
      unfold value, at_entry. fold (refs k). rewrite find_idx_notin by auto. reflexivity. }
  apply (In_nth _ _ 0%nat) in Hin. destruct Hin as (i & Hi & Eg). destruct (HS i Hi) as (T1 & T2 & T3 & T4). rewrite Eg in T1, T2, T3, T4.
  assert (HLift : forall x, (x < length (G n k (Datatypes.S deg)))%nat -> at_entry (ent k) g x = Zsum (length (b_bars (im_of S n k deg))) (fun a => get (pre k) x a * get gm a i)).
  { intros x Hx. unfold ent. rewrite Eo. destruct (Nat.ltb_spec 0 (nrows gm)) as [H0|H0].
    - rewrite <- Eg. rewrite L3 by (auto; lia). rewrite P1. reflexivity.
    - rewrite N1 in H0. replace (length (b_bars (im_of S n k deg))) with 0%nat by lia. reflexivity. }
  split; [|split; [|split]].
  - intros x Hx.
    assert (Hxs : (x < length (G n k (Datatypes.S deg)))%nat).
    { destruct (Nat.lt_ge_cases x (length (G n k (Datatypes.S deg)))) as [|Hge]; auto. exfalso. apply Hx.
      rewrite (good_entry_out (length (G n k (Datatypes.S deg)))); [apply Zmod_0_l|apply (Hent k Hk)|auto]. }
    split; [auto|].
    destruct (Zsum_nz_mod p (length (b_bars (im_of S n k deg))) (fun a => get (pre k) x a * get gm a i)) as (a & Ha & Hne); [lia|rewrite <- HLift; auto|].
    assert (Hga : get gm a i <> 0) by (intros E; apply Hne; rewrite E, Z.mul_0_r; apply Zmod_0_l).
    assert (Hpa : colv (pre k) a x mod p <> 0).
    { intros E. apply Hne. rewrite Zmult_mod. change (get (pre k) x a) with (colv (pre k) a x). rewrite E. apply Zmod_0_l. }
    destruct (T1 a Hga) as [_ Hb]. destruct (proj1 (P4 a Ha) x Hpa) as [_ Hrips]. eapply rips_le; eauto.
  - intros h Hh Hne. rewrite HB in Hne by auto. rewrite <- Eg, S5 in Hne by (auto; lia). apply (T2 h Hne).
  - intros j. rewrite (T3 j).
    assert (Eb : cong p (vbd n deg k (at_entry (ent k) g) j) (Zsum (length (b_bars (im_of S n k deg))) (fun a => get gm a i * get (b_coords (im_of S n k deg)) j a))).
    { unfold local_bd. rewrite (Zsum_ext _ _ (fun x => Zsum (length (b_bars (im_of S n k deg))) (fun a => get gm a i * (bd_entry (l_Ds (loc_of S n k)) (Datatypes.S deg) j x * colv (pre k) a x)))).
      2:{ intros x Hx. rewrite HLift by auto. rewrite <- Zsum_scale. apply Zsum_ext. intros a _. unfold colv. cbn [bd_entry]. ring. }
      rewrite Zsum_swap. apply Zsum_cong. intros a Ha. rewrite Zsum_scale. destruct (P4 a Ha) as [_ Hbd]. specialize (Hbd j). unfold local_bd in Hbd.
      rewrite Hbd. reflexivity. }
    rewrite Eb. apply cong_eq. f_equal. apply Zsum_ext. intros h Hh. rewrite HB by auto. rewrite <- Eg, S5 by (auto; lia). reflexivity.
  - intros Hz. split; [|intros h Hh; rewrite HB by auto; rewrite <- Eg, S5 by (auto; lia); apply (T4 Hz)].
    intros x. destruct (Nat.lt_ge_cases x (length (G n k (Datatypes.S deg)))) as [Hx|Hx]; [|apply (good_entry_out (length (G n k (Datatypes.S deg)))); [apply (Hent k Hk)|auto]].
    rewrite HLift by exact Hx. apply Zsum_0. intros a _. rewrite (proj1 (T4 Hz)). ring.
Qed.

Theorem first_page_lift_ok n deg start R : (n < length nerve)%nat -> (deg < m)%nat ->
  good (widths n deg) start ->
  (forall s g, In g (le_ref (nth s start e0)) -> (g < length R)%nat) ->
  (forall g, (g < length R)%nat -> nth g R 0 < max_r) ->
  (forall k g, (k < length (lev n))%nat -> (g < length R)%nat -> local_cycle p Dist IN S n deg k (nth g R 0) (value start k g)) ->
  (R <> [] -> lev n <> []) ->
  exists B lifts, first_page_lift S n deg start R = Ok (B, lifts) /\
    nrows B = length R /\ ncols B = list_sum (dims n deg) /\ wf_mat B /\ (forall g h, 0 <= get B g h < p) /\
    good (widths n (Datatypes.S deg)) lifts /\
    (forall k g, In g (le_ref (nth k lifts e0)) -> (g < length R)%nat) /\
    forall k g, (k < length (lev n))%nat -> (g < length R)%nat ->
      let H := hom_of S n k deg in
      local_chain p Dist IN S n (Datatypes.S deg) k (nth g R 0) (value lifts k g) /\
      (forall h, (h < length (b_bars H))%nat -> get B g (before n deg k + h) <> 0 -> bbirth (b_bars H) h <= nth g R 0 < bdeath (b_bars H) h) /\
      forall j, cong p (value start k g j)
        (vbd n deg k (value lifts k g) j + Zsum (length (b_bars H)) (fun h => get B g (before n deg k + h) * get (b_coords H) j h)).
Proof.
  intros Hn Hd Hg HR Hlt Hc Hlev. destruct (first_page_lift_gen n deg start R Hn Hd Hg HR (fun g X => or_introl (Hlt g X)) Hc Hlev) as (B & lifts & E & B1 & B2 & B3 & B4 & B5 & B6 & B7).
  exists B, lifts. do 7 (split; [assumption|]). intros k g Hk X. destruct (B7 k g Hk X) as (C1 & C2 & C3 & _). cbv zeta.
  split; [exact C1|]. split; [|exact C3]. intros h Hh Hne. specialize (C2 h Hh Hne). specialize (Hlt g X). lia.
Qed.
End FPLift.

Section Props.
Variables (argsort : list Z -> list nat) (rnd : Z -> Z) (Dist : list (list Z)) (max_r max_dim p : Z)
  (IN : list (list (list nat))) (n0 : nat) (nerve : list (list simplex)).
Hypothesis HI : mv_input argsort Dist max_r max_dim p IN n0 nerve.

Lemma C54_aux S : zero_page argsort rnd Dist max_r max_dim p IN n0 nerve = Ok S ->
  forall n deg start R, (n < length nerve)%nat -> (deg < Z.to_nat max_dim)%nat ->
  good (sizes IN n0 nerve S n deg) start ->
  (forall s g, In g (le_ref (nth s start e0)) -> (g < length R)%nat) ->
  (forall g, (g < length R)%nat -> nth g R 0 < max_r) ->
  (forall k g, (k < length (level n0 nerve n))%nat -> (g < length R)%nat -> local_cycle p Dist IN S n deg k (nth g R 0) (value start k g)) ->
  (R <> [] -> level n0 nerve n <> []) ->
  exists B lifts, first_page_lift S n deg start R = Ok (B, lifts) /\
    nrows B = length R /\ ncols B = classes n0 nerve S n deg /\ (forall g h, 0 <= get B g h < p) /\
    good (sizes IN n0 nerve S n (Datatypes.S deg)) lifts /\
    forall k g, (k < length (level n0 nerve n))%nat -> (g < length R)%nat ->
      let H := hom_of S n k deg in
      local_chain p Dist IN S n (Datatypes.S deg) k (nth g R 0) (value lifts k g) /\
      (forall h, (h < length (b_bars H))%nat -> get B g (classes_before S n deg k + h) <> 0 -> bbirth (b_bars H) h <= nth g R 0 < bdeath (b_bars H) h) /\
      forall j, value start k g j mod p =
        (local_bd IN S n deg k (value lifts k g) j
         + Zsum (length (b_bars H)) (fun h => get B g (classes_before S n deg k + h) * get (b_coords H) j h)) mod p.
Proof.
  intros E n deg start R Hn Hd Hg HR Hlt Hcyc Hlev. pose proof (zero_page_ok _ _ _ _ _ _ _ _ _ HI S E) as PO.
  destruct (first_page_lift_ok _ _ _ _ _ _ _ _ _ HI S PO n deg start R Hn Hd Hg HR Hlt Hcyc Hlev) as (B & lifts & Eb & B1 & B2 & _ & B4 & B5 & _ & HB).
  exists B, lifts. split; [auto|]. split; [auto|].
  split; [rewrite B2; apply (dims_classes _ _ _ _ _ _ _ _ _ HI S PO n deg); lia|]. split; [auto|]. split; [auto|].
  intros k g Hk Hgr. destruct (HB k g Hk Hgr) as (H1 & H2 & H3). cbv zeta in *.
  rewrite (before_classes _ _ _ _ _ _ _ _ _ HI S PO n deg k) in H2, H3 by lia. split; [auto|]. split; [auto|].
  intros j. apply cong_iff_mod; [pose proof (prime_ge_2 _ (mv_prime _ _ _ _ _ _ _ _ HI)); lia|]. apply H3.
Qed.
End Props.
