(** * The first page: its rows, their homology, and the bars of the second page *)
From Coq Require Import QArith.
From Verif Require Import Base ListX SortX Lin Gauss_model Gauss_arith Gauss_solve Basis_model Basis_props PH_model PH_loop PH_lin PH_props Simp_model Spec_Simp Simp_lists Simp_diff Simp_props
  Spec_PH Spec_Rips Rips_bd Rips_chain Rips_props LC_model Spec_LC LC_props SS_model Spec_SS SS_inv SS_page SS_cech SS_lift SS_zig SS_first SS_double SS_fplift
  IK_model IK_lin IK_abs IK_quot IK_mph MPH_props Spec_IK Spec_Bars Bars MPH_bars Bars_weak Bars_complex Spec_E2 Blocks SS_rows Cover_model HP_model HP_table.
From Coq Require Import Sorted Permutation Znumtheory.
Local Open Scope Z_scope.

Lemma mph_loop_zero rnd D Bs p d : forall Im_d Hom Im Pre H I Q, mph_loop rnd D Bs p d Im_d Hom Im Pre = Ok (H, I, Q) ->
  forall e, (e < d)%nat -> b_dim (nth (Datatypes.S e) Bs empty_basis) = 0%nat -> b_bars (nth e H empty_basis) = [] /\ b_dim (nth e H empty_basis) = 0%nat.
Proof.
  induction d as [|d IH]; intros Im_d Hom Im Pre H I Q E e He Hz; [lia|]. cbn [mph_loop] in E.
  destruct (nth_err Bs (Datatypes.S d)) as [B|] eqn:EB; [|discriminate]. cbn [bind] in E.
  destruct (nth_err Bs d) as [B1|] eqn:EB1; [|discriminate]. cbn [bind] in E.
  destruct (nth_err D (Datatypes.S d)) as [M|]; [|discriminate]. cbn [bind] in E.
  destruct (mph_step rnd M B B1 Im_d p) as [[[i h] pre]|] eqn:ES; [|discriminate]. cbn [bind] in E.
  destruct (Nat.eq_dec e d) as [->|Hne]; [|apply (IH _ _ _ _ _ _ _ E e); auto; lia].
  destruct (mph_loop_hom _ _ _ _ _ _ _ _ _ _ _ _ E) as (l & li & lq & -> & Ll & _). rewrite app_nth2, Ll, Nat.sub_diag by lia. cbn [nth].
  pose proof (nth_err_lt _ _ _ EB) as L1. rewrite (nth_err_nth Bs _ empty_basis L1) in EB. injection EB as <-. unfold mph_step in ES. rewrite Hz in ES. cbn [Nat.eqb] in ES.
  destruct (empty_over B1); [|discriminate]. cbn [bind] in ES. destruct (empty_over (nth (Datatypes.S d) Bs empty_basis)) as [h'|] eqn:E1; [|discriminate]. cbn [bind] in ES. injection ES as _ <- _.
  unfold empty_over in E1. apply mk_basis_bars in E1. apply E1.
Qed.

Lemma mph_zero rnd D Bs p Hom Im Pre : module_persistence_homology rnd D Bs p = Ok (Hom, Im, Pre) ->
  forall n, (n < length Bs)%nat -> b_dim (nth n Bs empty_basis) = 0%nat -> b_bars (nth n Bs empty_basis) = [] -> b_bars (nth n Hom empty_basis) = [] /\ b_dim (nth n Hom empty_basis) = 0%nat.
Proof.
  unfold module_persistence_homology. intros E. destruct Bs as [|B0 Bs]; [discriminate|]. set (Bs' := B0 :: Bs) in *.
  destruct (nth_err Bs' (length Bs' - 1)) as [B|]; [|discriminate]. cbn [bind] in E. destruct (empty_over B) as [e|]; [|discriminate]. cbn [bind] in E.
  destruct (mph_loop _ _ _ _ _ _ _ _ _) as [[[H I] Q]|] eqn:EL; [|discriminate]. cbn [bind] in E.
  intros n Hn Hz Hb. destruct n as [|n].
  - change (nth 0 Bs' empty_basis) with B0 in *. rewrite Hz in E. cbn [Nat.eqb bind] in E. injection E as <- _ _. split; [exact Hb|exact Hz].
  - match type of E with bind ?x _ = _ => destruct x as [H0|]; [|discriminate] end. cbn [bind] in E. injection E as <- _ _. cbn [nth].
    apply (mph_loop_zero _ _ _ _ _ _ _ _ _ _ _ _ EL); auto. unfold Bs' in *. cbn [length] in *. lia.
Qed.

(** Coordinates without columns cannot be localized. *)
Lemma localize_fold_err S n deg ref ds : ref <> [] -> forall s c st,
  foldM (fun (st : chains * nat) (kn : nat * nat) =>
      let '(c, prev) := st in
      if Nat.ltb prev (snd kn) then
        l <- the_local S n (fst kn) ;; h <- hom0 l deg ;;
        P <- matmul (b_coords h) (slice_rows no_coords prev (snd kn)) ;;
        c' <- add_entry c (fst kn) ref (LMat (nrows P) (cols P)) ;;
        Ok (c', snd kn)
      else Ok (c, snd kn)) (combine (seq s (length ds)) (cumulate 0 ds)) (c, 0%nat) = Ok st -> list_sum ds = 0%nat.
Proof.
  intros Hr. induction ds as [|x ds IH]; intros s c st E; [reflexivity|]. cbn [length seq cumulate Nat.add combine foldM] in E. cbn [fst snd] in E.
  destruct x as [|x].
  - cbn [Nat.ltb Nat.leb bind] in E. change (list_sum (0%nat :: ds)) with (list_sum ds). apply IH in E. exact E.
  - exfalso. cbn [Nat.ltb Nat.leb] in E. destruct (the_local S n s) as [l|]; [|discriminate]. cbn [bind] in E. destruct (hom0 l deg) as [h|]; [|discriminate]. cbn [bind] in E.
    destruct (matmul (b_coords h) (slice_rows no_coords 0 (Datatypes.S x))) as [P|] eqn:EP; [|discriminate]. cbn [bind] in E.
    unfold matmul in EP. destruct (Nat.eqb _ _); [|discriminate]. injection EP as <-. unfold add_entry in E.
    replace (cols (mmul (b_coords h) (slice_rows no_coords 0 (Datatypes.S x)))) with (@nil vec) in E by reflexivity. cbn [length] in E. destruct ref as [|y ref]; [congruence|]. cbn in E. discriminate.
Qed.

Lemma foldM_split {X St} (f : St -> X -> res St) l : forall s s' x, In x l -> foldM f l s = Ok s' ->
  exists l1 l2 s1 s2, l = l1 ++ x :: l2 /\ foldM f l1 s = Ok s1 /\ f s1 x = Ok s2 /\ foldM f l2 s2 = Ok s'.
Proof.
  induction l as [|y l IH]; intros s s' x Hx E; [destruct Hx|]. cbn [foldM] in E. destruct (f s y) as [s1|] eqn:E1; [|discriminate]. cbn [bind] in E.
  destruct Hx as [->|Hx].
  - exists [], l, s, s1. repeat split; auto.
  - destruct (IH s1 s' x Hx E) as (l1 & l2 & t1 & t2 & -> & F1 & F2 & F3). exists (y :: l1), l2, t1, t2. split; [reflexivity|]. split; [|auto]. cbn [foldM]. rewrite E1. exact F1.
Qed.

Section Row.
Variables (argsort : list Z -> list nat) (rnd : Z -> Z) (Dist : list (list Z)) (max_r max_dim p : Z)
  (IN : list (list (list nat))) (n0 : nat) (nerve : list (list simplex)).
Hypothesis HI : mv_input argsort Dist max_r max_dim p IN n0 nerve.
Variable S : ss.
Hypothesis PO : page_ok argsort rnd Dist max_r max_dim p IN n0 nerve S.
Hypothesis HN : pure_nerve n0 nerve.
Let m := Z.to_nat max_dim.
Let Hp := mv_prime _ _ _ _ _ _ _ _ HI.
Let lev n := level n0 nerve n.
Let L := length nerve.
Variable d : nat.
Hypothesis Hd : (d < m)%nat.
Hypothesis Hrnd : forall x y, local_end n0 nerve S d x -> local_end n0 nerve S d y -> rnd x <= rnd y -> x <= y.
Let p_pos : 0 < p. Proof. destruct Hp. lia. Qed.
Let rb := row_bars n0 nerve S d.

Lemma row_col n : (n < L)%nat -> exists c, nth_err (s_cols S) n = Ok c /\ nth_err (c_bars c) d = Ok (rb n).
Proof.
  intros Hn. exists (nth n (s_cols S) no_column). split.
  { apply nth_err_nth. rewrite (po_cols _ _ _ _ _ _ _ _ _ _ PO). unfold L in Hn. lia. }
  pose proof (po_col _ _ _ _ _ _ _ _ _ _ PO n Hn) as E. pose proof (po_count _ _ _ _ _ _ _ _ _ _ PO n Hn) as Lc. cbv beta in E, Lc. fold (lev n) in E, Lc. fold m in E.
  destruct (list_eq_dec (fun x y : list nat => ltac:(decide equality; apply Nat.eq_dec)) (lev n) []) as [Hl|Hl].
  - rewrite Hl in E, Lc. apply length_zero_iff_nil in Lc. cbn [length] in E. rewrite Lc, add_output_first_nil in E. injection E as E. rewrite <- E. cbn [c_bars].
    rewrite (nth_err_nth _ d []) by (rewrite repeat_length; auto). rewrite nth_repeat. unfold rb, row_bars. fold (lev n). rewrite Hl. reflexivity.
  - assert (Hne : c_loc (nth n (s_cols S) no_column) <> []) by (intros X; rewrite X in Lc; destruct (lev n); [congruence|discriminate]).
    destruct (add_output_first_ok m (c_loc (nth n (s_cols S) no_column)) Hne) as (c & Ec & E1 & _ & _ & E2 & E3).
    { intros deg l Hdeg Hl'. apply (In_nth _ _ no_local) in Hl'. destruct Hl' as (k & Hk & <-). rewrite Lc in Hk.
      destruct (hom0_of _ _ _ _ _ _ _ _ _ HI S PO n k deg Hn Hk ltac:(unfold m in Hdeg; lia)) as [A1 A2]. eauto. }
    rewrite <- Lc in E. rewrite Ec in E. injection E as E. rewrite <- E at 1. rewrite (nth_err_nth _ d []) by lia. f_equal.
    destruct (E3 d Hd) as (hs & Lh & Hh & _ & _ & _ & ->). unfold rb, row_bars. fold (lev n). f_equal. rewrite <- Lc, <- Lh. clear E3.
    apply (nth_ext _ _ [] []); rewrite !map_length, ?seq_length; [reflexivity|]. intros k Hk.
    change (@nil bar) with (b_bars empty_basis) at 1. rewrite map_nth. rewrite nth_map_seq by auto. f_equal.
    specialize (Hh k no_local ltac:(lia)). destruct (hom0_of _ _ _ _ _ _ _ _ _ HI S PO n k d Hn ltac:(cbv beta; fold (lev n); lia) ltac:(unfold m in Hd; lia)) as [A1 _].
    unfold loc_of in A1. rewrite A1 in Hh. injection Hh as <-. reflexivity.
Qed.

Definition row_base n : basis := Basis (rb n) (Nat.eqb (length (rb n)) 0) (length (rb n)) None no_coords false None None.

Lemma rb_bar n x : In x (rb n) -> fst x < snd x <= max_r.
Proof. apply (fam_pb _ _ _ _ _ _ _ _ _ HI S PO d Hd (proj2 HN) n). Qed.

Lemma rb_basis n : mk_basis (Nat.eqb (length (rb n)) 0) (rb n) None no_coords false false None = Ok (row_base n).
Proof.
  unfold mk_basis, mk_coords, mk_brk, row_base. cbn [andb bind].
  assert (E : forall b, In b (well_defined (rb n)) -> b = true).
  { intros b Hb. apply in_map_iff in Hb. destruct Hb as (x & <- & Hx). apply rb_bar in Hx. lia. }
  rewrite mask_all; [|unfold well_defined; rewrite map_length; reflexivity|exact E].
  replace (filter (fun b : bool => b) (well_defined (rb n))) with (well_defined (rb n)).
  2:{ clear - E. induction (well_defined (rb n)) as [|b l IH]; [reflexivity|]. cbn. rewrite (E b) by (left; auto). rewrite <- IH; auto. intros; apply E; right; auto. }
  unfold well_defined. rewrite map_length. destruct (Nat.eqb_spec (length (rb n)) 0) as [E0|E0]; [|reflexivity]. rewrite E0. reflexivity.
Qed.

Lemma row_bases : mapM (fun n => c <- nth_err (s_cols S) n ;; bars <- nth_err (c_bars c) d ;;
      mk_basis (Nat.eqb (length bars) 0) bars None no_coords false false None) (seq 0 L) = Ok (map row_base (seq 0 L)).
Proof.
  apply mapM_pure. intros n Hn. apply in_seq in Hn. destruct (row_col n ltac:(lia)) as (c & -> & E). cbn [bind]. rewrite E. cbn [bind]. apply rb_basis.
Qed.

Let Bs := map row_base (seq 0 L).
Lemma Bs_len : length Bs = L. Proof. unfold Bs. rewrite map_length, seq_length. reflexivity. Qed.
Lemma Bs_nth n : (n < L)%nat -> nth n Bs empty_basis = row_base n.
Proof. intros Hn. unfold Bs. apply nth_map_seq. auto. Qed.
Lemma Bs_bars n : b_bars (nth n Bs empty_basis) = rb n.
Proof.
  destruct (Nat.lt_ge_cases n L) as [H|H]; [rewrite Bs_nth by auto; reflexivity|].
  rewrite nth_overflow by (rewrite Bs_len; auto). cbn [b_bars empty_basis]. unfold rb, row_bars.
  destruct (level n0 nerve n) as [|x l] eqn:E; [reflexivity|]. exfalso. pose proof (lev_lt _ _ _ _ _ _ _ _ HI S d Hd (proj2 HN) n 0) as X. cbv beta in X. rewrite E in X. cbn in X. specialize (X ltac:(lia)). unfold L in H. lia.
Qed.

Lemma rb_len n : length (rb n) = classes n0 nerve S n d.
Proof. unfold rb. rewrite row_bars_length. reflexivity. Qed.

Lemma first_diff_nil n : (Datatypes.S n < L)%nat -> lev (Datatypes.S n) = [] -> first_differential S n d = Ok None.
Proof.
  intros Hn Hl. unfold first_differential. cbn [Nat.add].
  assert (Epage : page_dim1 S (Datatypes.S n) d = Ok 0%nat).
  { unfold page_dim1. rewrite (nth_err_nth (s_cols S) (Datatypes.S n) no_column) by (rewrite (po_cols _ _ _ _ _ _ _ _ _ _ PO); unfold L in Hn; lia). cbn [bind].
    pose proof (po_col _ _ _ _ _ _ _ _ _ _ PO (Datatypes.S n) Hn) as E. pose proof (po_count _ _ _ _ _ _ _ _ _ _ PO (Datatypes.S n) Hn) as Lc.
    cbv beta in Lc, E. fold (lev (Datatypes.S n)) in Lc, E. rewrite Hl in Lc, E. cbn [length] in E. apply length_zero_iff_nil in Lc. rewrite Lc, add_output_first_nil in E. injection E as E.
    rewrite <- E. cbn [c_dim]. rewrite (nth_err_nth _ d 0%nat) by (rewrite repeat_length; auto). rewrite nth_repeat. reflexivity. }
  rewrite Epage. reflexivity.
Qed.

(** The matrix of one differential. *)
Definition diff_spec (n : nat) (M : mat) : Prop :=
  rb (Datatypes.S n) = [] \/
  nrows M = length (rb n) /\ ncols M = length (rb (Datatypes.S n)) /\ wf_mat M /\ (forall i j, 0 <= get M i j) /\
  (forall j i, (j < length (rb (Datatypes.S n)))%nat -> (i < length (rb n))%nat -> get M i j mod p <> 0 -> fst (nth i (rb n) (0, 0)) <= fst (nth j (rb (Datatypes.S n)) (0, 0))) /\
  forall j, (j < length (rb (Datatypes.S n)))%nat -> fam_bounds p Dist IN n0 nerve S d n (fst (nth j (rb (Datatypes.S n)) (0, 0)))
    (fun x => fam_cech IN n0 nerve S d n (fam_gen n0 nerve S d (Datatypes.S n) j) x - Zsum (length (rb n)) (fun i => get M i j * fam_gen n0 nerve S d n i x)).

Lemma row_diff n : (Datatypes.S n < L)%nat -> exists o, first_differential S n d = Ok o /\ diff_spec n (match o with Some B => mtr B | None => Mat 0 [] end).
Proof.
  intros Hn. destruct (proj1 HN n Hn) as [Hl|Hc].
  { exists None. split; [apply first_diff_nil; auto|]. left. unfold rb, row_bars. rewrite Hl. reflexivity. }
  destruct (first_differential_ok _ _ _ _ _ _ _ _ _ HI S PO n d Hn Hd Hc) as (o & E & Ho). exists o. split; [exact E|].
  destruct o as [B|].
  2:{ left. apply length_zero_iff_nil. rewrite rb_len. exact Ho. }
  right. destruct Ho as (_ & H1 & H2 & H3 & H4 & H5). rewrite <- rb_len in H1, H2. destruct (mtr_dims B) as [D1 D2].
  assert (Hg : forall i j, (i < length (rb n))%nat -> (j < length (rb (Datatypes.S n)))%nat -> get (mtr B) i j = get B j i).
  { intros i j Hi Hj. apply get_mtr; lia. }
  repeat split; try congruence; try apply wf_mtr.
  - intros i j. destruct (Nat.lt_ge_cases i (length (rb n))) as [Hi|Hi]; [destruct (Nat.lt_ge_cases j (length (rb (Datatypes.S n)))) as [Hj|Hj]|].
    + rewrite Hg by auto. apply H4.
    + rewrite get_out; [lia|apply wf_mtr|right; lia].
    + rewrite get_out; [lia|apply wf_mtr|left; lia].
  - intros j i Hj Hi Hne. rewrite Hg in Hne by auto.
    destruct (row_pos n0 nerve S d (Datatypes.S n) j Hj) as (s & a & Hs & Ha & ->). destruct (row_pos n0 nerve S d n i Hi) as (k & h & Hk & Hh & ->).
    unfold rb. rewrite !row_bars_nth by auto.
    destruct (H5 s a k Hs Ha Hk) as (_ & H6 & _). apply (H6 h Hh). intros X. apply Hne.
    change (classes_before S (Datatypes.S n) d s) with (start (famlen S d (Datatypes.S n)) s) in X. change (classes_before S n d k) with (start (famlen S d n) k) in X. rewrite X. apply Zmod_0_l.
  - intros k j' Hk. rewrite (fc_out _ _ _ _ _ _ _ _ HI S d Hd) by auto. rewrite (comb_out _ _ _ _ _ _ _ _ HI S d Hd) by auto. apply Zmod_0_l.
  - intros k Hk. destruct (row_pos n0 nerve S d (Datatypes.S n) j H) as (s & a & Hs & Ha & ->).
    destruct (H5 s a k Hs Ha Hk) as (_ & _ & H7). cbv zeta in H7. unfold rb at 1. rewrite row_bars_nth by auto.
    refine (subs_cong p Hp _ _ _ (local_bounds_sub argsort Dist max_r max_dim p IN n0 nerve HI S n d k _) _ H7). intros i. cbv beta.
    pose proof (comb_part _ _ _ _ _ _ _ _ HI S d Hd n k (fun i0 => get (mtr B) i0 (start (famlen S d (Datatypes.S n)) s + a)) i Hk) as E1. unfold part in E1 |- *. fold rb in E1. rewrite E1.
    pose proof (fc_in _ _ _ _ _ _ _ _ HI S d Hd n (fam_gen n0 nerve S d (Datatypes.S n) (start (famlen S d (Datatypes.S n)) s + a)) k Hk i) as E2. unfold part at 1 in E2. rewrite E2.
    apply cong_sub.
    + apply ci_ext. intros s' i' Hs'. rewrite (gen_part _ _ _ _ _ _ _ _ HI S d Hd) by auto. reflexivity.
    + apply cong_eq. apply Zsum_ext. intros h Hh. f_equal. symmetry. apply Hg; [|exact H].
      unfold rb. rewrite row_bars_length. cbv beta. change (classes_before S n d k) with (start (famlen S d n) k). pose proof (start_end (famlen S d n) k (length (level n0 nerve n)) Hk). assert (h < famlen S d n k)%nat by exact Hh. lia.
Qed.

Lemma row_diffs : exists D, mapM (fun n => match n with O => Ok (Mat 0 []) | Datatypes.S n' => o <- first_differential S n' d ;; Ok (match o with Some B => mtr B | None => Mat 0 [] end) end) (seq 0 L) = Ok D /\
  length D = L /\ forall n, (Datatypes.S n < L)%nat -> diff_spec n (nth (Datatypes.S n) D (Mat 0 [])).
Proof.
  match goal with |- exists D, mapM ?f _ = _ /\ _ => destruct (mapM_total f (seq 0 L)) as (D & ED) end.
  { intros n Hn. apply in_seq in Hn. destruct n as [|n]; [eauto|]. destruct (row_diff n ltac:(lia)) as (o & -> & _). cbn [bind]. eauto. }
  exists D. split; [exact ED|]. apply mapM_Ok in ED. destruct ED as [LD HD]. rewrite seq_length in LD, HD. split; [exact LD|].
  intros n Hn. specialize (HD (Datatypes.S n) 0%nat (Mat 0 []) Hn). rewrite seq_nth in HD by auto. cbn [Nat.add] in HD.
  destruct (row_diff n Hn) as (o & E & Ho). rewrite E in HD. cbn [bind] in HD. injection HD as <-. exact Ho.
Qed.

(** Bars of degree [n] and [n + 1] of a row have their ends among those of the local bars. *)
Lemma rb_end n x : (n < L)%nat -> In x (endpoints (rb n)) -> local_end n0 nerve S d x.
Proof.
  intros Hn Hx. unfold endpoints in Hx. apply in_app_or in Hx.
  assert (Hx' : exists b, In b (rb n) /\ (x = fst b \/ x = snd b)).
  { destruct Hx as [Hx|Hx]; apply in_map_iff in Hx; destruct Hx as (b & <- & Hb); eauto. }
  destruct Hx' as (b & Hb & He). unfold rb, row_bars in Hb. apply in_concat in Hb. destruct Hb as (l & Hl & Hb). apply in_map_iff in Hl. destruct Hl as (k & <- & Hk). apply in_seq in Hk.
  exists n, k, b. repeat split; auto. lia.
Qed.

Lemma endpoints_app a b x : In x (endpoints (a ++ b)) -> In x (endpoints a) \/ In x (endpoints b).
Proof. unfold endpoints. rewrite !map_app, !in_app_iff. tauto. Qed.

Lemma Bs_ok n : (n < L)%nat -> b_dim (nth n Bs empty_basis) = length (rb n) /\ b_brk (nth n Bs empty_basis) = None /\ ((0 < length (rb n))%nat -> bars_ok (nth n Bs empty_basis)).
Proof.
  intros Hn. rewrite Bs_nth by auto. split; [reflexivity|]. split; [reflexivity|]. intros H. unfold bars_ok. cbn [row_base b_flat b_dim b_bars]. split.
  - apply Nat.eqb_neq. lia.
  - split; [reflexivity|]. intros x Hx. apply rb_bar in Hx. lia.
Qed.

Section Complex.
Variable D : list mat.
Hypothesis LD : length D = L.
Hypothesis HD : forall n, (Datatypes.S n < L)%nat -> diff_spec n (nth (Datatypes.S n) D (Mat 0 [])).

Lemma rb_big n : (L <= n)%nat -> rb n = [].
Proof. intros H. rewrite <- Bs_bars. rewrite nth_overflow; [reflexivity|]. rewrite Bs_len. exact H. Qed.

Lemma diff_or n : rb (Datatypes.S n) = [] \/ diff_spec n (nth (Datatypes.S n) D (Mat 0 [])).
Proof. destruct (Nat.lt_ge_cases (Datatypes.S n) L) as [H|H]; [right; auto|left; apply rb_big; auto]. Qed.

Let Zc := fam_cycle p Dist IN n0 nerve S d.
Let Bc := fam_bounds p Dist IN n0 nerve S d.
Let dd := fam_cech IN n0 nerve S d.
Let g := fam_gen n0 nerve S d.
Let Htop := proj2 HN.

Lemma cx_Z n r : Spec_Bars.subspace p (Zc n r). Proof. apply (fam_cycle_sub argsort Dist max_r max_dim p IN n0 nerve HI S d). Qed.
Lemma cx_B n r : Spec_Bars.subspace p (Bc n r). Proof. apply (fam_bounds_sub argsort Dist max_r max_dim p IN n0 nerve HI S d). Qed.
Lemma cx_Zm n r s v : r <= s -> Zc n r v -> Zc n s v. Proof. apply fam_cycle_mono. Qed.
Lemma cx_Bm n r s v : r <= s -> Bc n r v -> Bc n s v. Proof. apply fam_bounds_mono. Qed.
Lemma cx_BZ n r v : Bc n r v -> Zc n r v. Proof. apply (fam_bounds_cycle _ _ _ _ _ _ _ _ _ HI S PO d Hd Htop). Qed.
Lemma cx_lin n N (c : nat -> Z) b v : (forall i, cong p (v i) (Zsum N (fun k => c k * b k i))) -> forall i, cong p (dd n v i) (Zsum N (fun k => c k * dd n (b k) i)).
Proof. apply (fc_lin argsort Dist max_r max_dim p IN n0 nerve HI S d). exact Hd. Qed.
Lemma cx_dZ n r v : Zc (Datatypes.S n) r v -> Zc n r (dd n v). Proof. apply (fc_cycle _ _ _ _ _ _ _ _ _ HI S PO d Hd Htop). Qed.
Lemma cx_dB n r v : Bc (Datatypes.S n) r v -> Bc n r (dd n v). Proof. apply (fc_bounds _ _ _ _ _ _ _ _ _ HI S PO d Hd Htop). Qed.
Lemma cx_dd n r v : Zc (Datatypes.S (Datatypes.S n)) r v -> Bc n r (dd n (dd (Datatypes.S n) v)). Proof. apply (fc_fc _ _ _ _ _ _ _ _ _ HI S PO d Hd Htop). Qed.
Lemma cx_g n : persistent_basis p (Zc n) (Bc n) max_r (b_bars (nth n Bs empty_basis)) (g n).
Proof. rewrite Bs_bars. apply (fam_pb _ _ _ _ _ _ _ _ _ HI S PO d Hd Htop). Qed.
Lemma cx_Dc n : b_bars (nth (Datatypes.S n) Bs empty_basis) <> [] -> ncols (nth (Datatypes.S n) D (Mat 0 [])) = length (b_bars (nth (Datatypes.S n) Bs empty_basis)).
Proof. rewrite Bs_bars. intros H. destruct (diff_or n) as [X|[X|(_ & X & _)]]; try contradiction. exact X. Qed.
Lemma cx_Db n j i : (j < length (b_bars (nth (Datatypes.S n) Bs empty_basis)))%nat -> (i < length (b_bars (nth n Bs empty_basis)))%nat -> get (nth (Datatypes.S n) D (Mat 0 [])) i j mod p <> 0 ->
  fst (nth i (b_bars (nth n Bs empty_basis)) (0, 0)) <= fst (nth j (b_bars (nth (Datatypes.S n) Bs empty_basis)) (0, 0)).
Proof.
  rewrite !Bs_bars. intros Hj Hi. destruct (diff_or n) as [X|[X|(_ & _ & _ & _ & X & _)]]; [rewrite X in Hj; cbn in Hj; lia..|]. apply X; auto.
Qed.
Lemma cx_Dd n j : (j < length (b_bars (nth (Datatypes.S n) Bs empty_basis)))%nat -> Bc n (fst (nth j (b_bars (nth (Datatypes.S n) Bs empty_basis)) (0, 0)))
  (fun x => dd n (g (Datatypes.S n) j) x - Zsum (length (b_bars (nth n Bs empty_basis))) (fun i => get (nth (Datatypes.S n) D (Mat 0 [])) i j * g n i x)).
Proof.
  rewrite !Bs_bars. intros Hj. destruct (diff_or n) as [X|[X|(_ & _ & _ & _ & _ & X)]]; [rewrite X in Hj; cbn in Hj; lia..|]. apply X; auto.
Qed.

Lemma row_complex : is_complex p D Bs.
Proof. apply (diff_is_complex p max_r Zc Bc dd D Bs g Hp cx_Z cx_B cx_Zm cx_Bm cx_BZ cx_lin cx_dZ cx_dB cx_dd cx_g cx_Dc cx_Db cx_Dd). Qed.

Lemma row_input : (0 < L)%nat -> chain_input rnd p D Bs.
Proof.
  intros HL. constructor.
  - exact Hp.
  - rewrite Bs_len, LD. lia.
  - rewrite Bs_len. intros n Hn. destruct (Bs_ok n Hn) as (E1 & E2 & E3). split; [exact E2|]. rewrite E1, Bs_bars. destruct (rb n) eqn:E; [right; auto|left]. split; [cbn; lia|apply E3; cbn; lia].
  - rewrite Bs_len. intros n Hn HA HB. destruct (Bs_ok n ltac:(lia)) as (E1 & E2 & E3). destruct (Bs_ok (Datatypes.S n) ltac:(lia)) as (F1 & F2 & F3).
    destruct (HD n Hn) as [X|(D1 & D2 & D3 & D4 & _)]; [rewrite F1, X in HA; cbn in HA; lia|]. constructor; auto; try lia.
    + apply F3. lia.
    + apply E3. lia.
    + apply (diff_morphism p max_r Zc Bc dd D Bs g Hp cx_Z cx_B cx_Zm cx_Bm cx_BZ cx_lin cx_dZ cx_dB cx_dd cx_g cx_Dc cx_Db cx_Dd).
    + unfold dom_ok. rewrite Bs_nth by auto. cbn [row_base b_sorted b_bars]. intros x y Hx Hy. apply Hrnd; apply (rb_end (Datatypes.S n)); auto; unfold endpoints; apply in_or_app; left; apply in_map; auto.
  - rewrite Bs_len. intros n Hn x y Hx Hy. rewrite Bs_bars in Hx, Hy.
    assert (HE : forall z, In z (endpoints (rb n ++ match n with O => [] | Datatypes.S e => b_bars (nth e Bs empty_basis) end)) -> local_end n0 nerve S d z).
    { intros z Hz. apply endpoints_app in Hz. destruct Hz as [Hz|Hz]; [apply (rb_end n); auto|]. destruct n as [|n]; [destruct Hz|]. rewrite Bs_bars in Hz. apply (rb_end n); auto. lia. }
    apply Hrnd; auto.
Qed.

Lemma row_mph : (0 < L)%nat -> exists Hom Im Pre, module_persistence_homology rnd D Bs p = Ok (Hom, Im, Pre) /\ length Hom = L /\ length Im = L /\ length Pre = L.
Proof. intros HL. destruct (mph_total_aux rnd p D Bs (row_input HL) row_complex) as (H & J & P & E & L1 & L2 & L3). rewrite Bs_len in *. exists H, J, P. auto. Qed.

(** The bars of the homology end by [max_r]. *)
Lemma hom_end Hom Im Pre n : (0 < L)%nat -> module_persistence_homology rnd D Bs p = Ok (Hom, Im, Pre) -> (n < L)%nat -> ~ over_zero Bs n -> (0 < length (rb n))%nat ->
  forall x, In x (b_bars (nth n Hom empty_basis)) -> snd x <= max_r.
Proof.
  intros HL E Hn Ho Hpos x Hx. destruct (Z_le_gt_dec (snd x) max_r) as [H|H]; [exact H|exfalso].
  destruct (mph_homology_aux rnd p D Bs (row_input HL) Hom Im Pre E n ltac:(rewrite Bs_len; auto) Ho) as (HO & g' & HQ).
  assert (Hd' : (0 < b_dim (nth n Bs empty_basis))%nat) by (rewrite (proj1 (Bs_ok n Hn)); auto).
  destruct (HO Hd') as ((_ & Q0 & Qne) & _). specialize (Qne x Hx).
  set (r := Z.max max_r (fst x)). destruct (HQ r) as ((_ & _ & Q3) & _).
  apply (In_nth _ _ (0, 0)) in Hx. destruct Hx as (k & Hk & Ek).
  assert (Hone : 1 mod p = 0).
  { pose proof (Q3 (fun i => if Nat.eqb i k then 1 else 0)) as Q.
    assert (A1 : forall i, living (b_bars (nth n Hom empty_basis)) r i <> true -> (if Nat.eqb i k then 1 else 0) = 0).
    { intros i Hi. destruct (Nat.eqb_spec i k) as [->|]; auto. exfalso. apply Hi. unfold living. rewrite Ek. destruct (Nat.ltb_spec k (length (b_bars (nth n Hom empty_basis)))); [|lia]. cbn [andb]. unfold r. lia. }
    specialize (Q A1).
    assert (A2 : forall v, bounds_at p D Bs n r v).
    { intros v. exists (fun _ => 0). intros i Hi. exfalso. unfold living in Hi. rewrite Bs_bars in Hi. apply andb_true_iff in Hi. destruct Hi as [Hi Hi2]. apply andb_true_iff in Hi. destruct Hi as [Hi _].
      apply Nat.ltb_lt in Hi. pose proof (rb_bar n _ (nth_In (rb n) (0, 0) Hi)). unfold r in Hi2. lia. }
    specialize (Q (A2 _) k ltac:(lia)). cbv beta in Q; rewrite Nat.eqb_refl in Q. exact Q. }
  destruct Hp. rewrite Z.mod_small in Hone by lia. discriminate.
Qed.

(** The bars of the homology of the row are the barcode of the second page. *)
Lemma row_barcode Hom Im Pre n : (0 < L)%nat -> module_persistence_homology rnd D Bs p = Ok (Hom, Im, Pre) -> (n < L)%nat -> ~ over_zero Bs n ->
  barcode p (page2_cycle p Dist IN n0 nerve S d n) (page2_bounds p Dist IN n0 nerve S d n) max_r (b_bars (nth n Hom empty_basis)).
Proof.
  intros HL E Hn Ho. destruct (Nat.eq_dec (length (rb n)) 0) as [H0|H0].
  - rewrite (proj1 (mph_zero rnd D Bs p Hom Im Pre E n ltac:(rewrite Bs_len; exact Hn) ltac:(rewrite (proj1 (Bs_ok n Hn)); exact H0) ltac:(rewrite Bs_bars; apply length_zero_iff_nil; exact H0))).
    split; [intros x []|]. intros r s Hrs. exists (fun _ _ => 0). split; [intros k Hk; cbn in Hk; lia|]. split; [|intros c _ _ k Hk; cbn in Hk; lia].
    intros v Hv. exists (fun _ => 0). split; [auto|]. destruct Hv as [Hv _].
    destruct (fam_pb _ _ _ _ _ _ _ _ _ HI S PO d Hd Htop n) as (_ & HQ & _). destruct (HQ r ltac:(lia)) as (_ & HQ2 & _). destruct (HQ2 v Hv) as (c & _ & Hb).
    fold rb in Hb. rewrite H0 in Hb.
    assert (Hb' : Bc n s v). { apply (cx_Bm n r); [lia|]. refine (subs_cong p Hp _ _ _ (cx_B n r) _ Hb). intros i. cbn [Zsum]. apply cong_eq. ring. }
    split.
    + refine (subs_cong p Hp _ _ _ (cx_Z n s) _ (cx_BZ _ _ _ Hb')). intros i. cbn [count_bars filter length Zsum]. apply cong_eq. ring.
    + exists (fun _ => 0). split.
      * apply (subs_zero p Hp); [apply cx_Z|]. intros i. reflexivity.
      * refine (subs_cong p Hp _ _ _ (cx_B n s) _ Hb'). intros i. cbn [count_bars filter length Zsum].
        pose proof (cx_lin n 0 (fun _ => 0) (fun _ _ => 0) (fun _ => 0) ltac:(intros; reflexivity) i) as X. cbn [Zsum] in X. unfold dd in X. rewrite X. apply cong_eq. ring.
  - apply (E2_barcode p max_r Zc Bc dd D Bs g Hp cx_Z cx_B cx_Zm cx_Bm cx_BZ cx_lin cx_dZ cx_dB cx_dd cx_g cx_Dc cx_Db cx_Dd).
    apply (mph_barcode_aux rnd p D Bs (row_input HL) Hom Im Pre E n); auto.
    + rewrite Bs_len. auto.
    + apply (hom_end Hom Im Pre n); auto. lia.
    + rewrite (proj1 (Bs_ok n Hn)). lia.
Qed.
Lemma row_zero n r v : length (rb n) = 0%nat -> r < max_r -> Zc n r v -> page2_bounds p Dist IN n0 nerve S d n r v.
Proof.
  intros H0 Hr Hv. destruct (fam_pb _ _ _ _ _ _ _ _ _ HI S PO d Hd Htop n) as (_ & HQ & _). destruct (HQ r Hr) as (_ & HQ2 & _). destruct (HQ2 v Hv) as (c & _ & Hb).
  fold rb in Hb. rewrite H0 in Hb. split; [exact Hv|]. exists (fun _ => 0). split.
  - apply (subs_zero p Hp); [apply cx_Z|]. intros i. reflexivity.
  - refine (subs_cong p Hp _ _ _ (cx_B n r) _ Hb). intros i. cbn [Zsum].
    pose proof (cx_lin n 0 (fun _ => 0) (fun _ _ => 0) (fun _ => 0) ltac:(intros; reflexivity) i) as X. cbn [Zsum] in X. unfold dd in X. rewrite X. apply cong_eq. ring.
Qed.

(** The combination of the local generators with given coefficients. *)
Definition fam_comb (n : nat) (c : nat -> Z) (x : nat * nat) : Z := Zsum (length (rb n)) (fun h => c h * fam_gen n0 nerve S d n h x).

Lemma comb_fam n c x : comb Bs g n c x = fam_comb n c x.
Proof. unfold comb, fam_comb. rewrite Bs_bars. reflexivity. Qed.

(** The columns of coordinates of the homology give families with these bars, in the first column and below the top one; a
    generator occurs in a column only if it is born before. *)
Lemma row_pb Hom Im Pre n : (0 < L)%nat -> module_persistence_homology rnd D Bs p = Ok (Hom, Im, Pre) -> (n < L)%nat -> ~ over_zero Bs n ->
  n = 0%nat \/ rb (Datatypes.S n) = [] ->
  persistent_basis p (page2_cycle p Dist IN n0 nerve S d n) (page2_bounds p Dist IN n0 nerve S d n) max_r (b_bars (nth n Hom empty_basis))
    (fun k => fam_comb n (Spec_IK.column (b_coords (nth n Hom empty_basis)) k)) /\
  b_dim (nth n Hom empty_basis) = length (b_bars (nth n Hom empty_basis)) /\
  ((0 < b_dim (nth n Hom empty_basis))%nat -> over (nth n Hom empty_basis) (row_base n)) /\
  forall k i, (k < b_dim (nth n Hom empty_basis))%nat -> (i < length (rb n))%nat -> get (b_coords (nth n Hom empty_basis)) i k mod p <> 0 ->
    fst (nth i (rb n) (0, 0)) <= fst (nth k (b_bars (nth n Hom empty_basis)) (0, 0)).
Proof.
  intros HL E Hn Ho Hx. destruct (Nat.eq_dec (length (rb n)) 0) as [H0|H0].
  - destruct (mph_zero rnd D Bs p Hom Im Pre E n ltac:(rewrite Bs_len; exact Hn) ltac:(rewrite (proj1 (Bs_ok n Hn)); exact H0) ltac:(rewrite Bs_bars; apply length_zero_iff_nil; exact H0)) as [E1 E2].
    rewrite E1, E2. cbn [length]. split; [|split; [reflexivity|split; intros; lia]].
    split; [intros x []|]. split; [|intros r k _ Hk; cbn in Hk; lia]. intros r Hr. split; [intros k Hk; cbn in Hk; lia|]. split; [|intros c _ _ k Hk; cbn in Hk; lia].
    intros v [Hv _]. exists (fun _ => 0). split; [auto|]. apply row_zero; auto.
    refine (subs_cong p Hp _ _ _ (cx_Z n r) _ Hv). intros i. cbn [length Zsum]. apply cong_eq. ring.
  - assert (Hpos : (0 < b_dim (nth n Bs empty_basis))%nat) by (rewrite (proj1 (Bs_ok n Hn)); lia).
    destruct (mph_pb_aux rnd p D Bs (row_input HL) Hom Im Pre E n ltac:(rewrite Bs_len; exact Hn) Ho max_r) as [HO HP]; auto.
    { apply (hom_end Hom Im Pre n); auto. lia. }
    { rewrite Bs_bars. destruct Hx as [->|Hx]; [left|right; exact Hx]. split; [reflexivity|]. rewrite Bs_nth by auto. reflexivity. }
    split; [|split; [|split]].
    + pose proof (E2_pb p max_r Zc Bc dd D Bs g Hp cx_Z cx_B cx_Zm cx_Bm cx_BZ cx_lin cx_dZ cx_dB cx_dd cx_g cx_Dc cx_Db cx_Dd n _ _ HP) as X. unfold comb in X. rewrite Bs_bars in X. exact X.
    + destruct HO as ((_ & X & _) & _). exact X.
    + intros _. rewrite Bs_nth in HO by auto. exact HO.
    + intros k i Hk Hi Hne. destruct HO as ((_ & X & _) & _). rewrite X in Hk. destruct HP as (P1 & P2 & _).
      assert (Hb := P1 _ (nth_In _ (0, 0) Hk)).
      destruct (P2 (fst (nth k (b_bars (nth n Hom empty_basis)) (0, 0))) ltac:(lia)) as (P3 & _). specialize (P3 k Hk ltac:(unfold bbirth, bdeath; lia)). destruct P3 as [P3 _].
      destruct (Z_lt_le_dec (fst (nth k (b_bars (nth n Hom empty_basis)) (0, 0))) (fst (nth i (rb n) (0, 0)))) as [Hl|Hl]; [|exact Hl].
      exfalso. apply Hne. apply P3; rewrite ?Bs_bars; auto.
Qed.

(** In general, when all generators are born at the same radius. *)
Lemma row_wb Hom Im Pre n b0 : (0 < L)%nat -> module_persistence_homology rnd D Bs p = Ok (Hom, Im, Pre) -> (n < L)%nat -> ~ over_zero Bs n ->
  (forall x, In x (rb n) -> fst x = b0) -> (forall x, In x (rb (Datatypes.S n)) -> fst x = b0) ->
  weak_basis p (page2_cycle p Dist IN n0 nerve S d n) (page2_bounds p Dist IN n0 nerve S d n) max_r (b_bars (nth n Hom empty_basis))
    (fun k => fam_comb n (Spec_IK.column (b_coords (nth n Hom empty_basis)) k)) /\
  b_dim (nth n Hom empty_basis) = length (b_bars (nth n Hom empty_basis)) /\
  ((0 < b_dim (nth n Hom empty_basis))%nat -> over (nth n Hom empty_basis) (row_base n)) /\
  forall k i, (k < b_dim (nth n Hom empty_basis))%nat -> (i < length (rb n))%nat -> get (b_coords (nth n Hom empty_basis)) i k mod p <> 0 ->
    fst (nth i (rb n) (0, 0)) <= fst (nth k (b_bars (nth n Hom empty_basis)) (0, 0)).
Proof.
  intros HL E Hn Ho Hx0 Hx1. destruct (Nat.eq_dec (length (rb n)) 0) as [H0|H0].
  - destruct (mph_zero rnd D Bs p Hom Im Pre E n ltac:(rewrite Bs_len; exact Hn) ltac:(rewrite (proj1 (Bs_ok n Hn)); exact H0) ltac:(rewrite Bs_bars; apply length_zero_iff_nil; exact H0)) as [E1 E2].
    rewrite E1, E2. cbn [length]. split; [|split; [reflexivity|split; intros; lia]].
    split; [intros x []|]. split; [|intros k Hk; cbn in Hk; lia]. intros r Hr. split; [intros k Hk; cbn in Hk; lia|]. split; [|intros c _ _ k Hk; cbn in Hk; lia].
    intros v [Hv _]. exists (fun _ => 0). split; [auto|]. apply row_zero; auto.
    refine (subs_cong p Hp _ _ _ (cx_Z n r) _ Hv). intros i. cbn [length Zsum]. apply cong_eq. ring.
  - assert (Hpos : (0 < b_dim (nth n Bs empty_basis))%nat) by (rewrite (proj1 (Bs_ok n Hn)); lia).
    destruct (mph_wb_aux rnd p D Bs b0 (row_input HL) row_complex Hom Im Pre E n ltac:(rewrite Bs_len; exact Hn) Ho max_r) as [HO HP]; auto; try (rewrite Bs_bars; auto).
    { apply (hom_end Hom Im Pre n); auto. lia. }
    split; [|split; [|split]].
    + pose proof (wb_map p _ _ _ _ (comb Bs g n) max_r _ _ Hp
        (read_W p max_r Zc Bc dd D Bs g Hp cx_Z cx_B cx_Zm cx_Bm cx_BZ cx_lin cx_dZ cx_dB cx_dd cx_g cx_Dc cx_Db cx_Dd n)
        (read_B p max_r Zc Bc dd D Bs g Hp cx_Z cx_B cx_Zm cx_Bm cx_BZ cx_lin cx_dZ cx_dB cx_dd cx_g cx_Dc cx_Db cx_Dd n)
        (read_lin p Bs g n)
        (read_ext p Bs g n)
        (read_cycle p max_r Zc Bc dd D Bs g Hp cx_Z cx_B cx_Zm cx_Bm cx_BZ cx_lin cx_dZ cx_dB cx_dd cx_g cx_Dc cx_Db cx_Dd n)
        (read_bound p max_r Zc Bc dd D Bs g Hp cx_Z cx_B cx_Zm cx_Bm cx_BZ cx_lin cx_dZ cx_dB cx_dd cx_g cx_Dc cx_Db cx_Dd n)
        (read_inj p max_r Zc Bc dd D Bs g Hp cx_Z cx_B cx_Zm cx_Bm cx_BZ cx_lin cx_dZ cx_dB cx_dd cx_g cx_Dc cx_Db cx_Dd n)
        (read_onto p max_r Zc Bc dd D Bs g Hp cx_Z cx_B cx_Zm cx_Bm cx_BZ cx_lin cx_dZ cx_dB cx_dd cx_g cx_Dc cx_Db cx_Dd n) HP) as X. unfold comb in X. rewrite Bs_bars in X. exact X.
    + destruct HO as ((_ & X & _) & _). exact X.
    + intros _. rewrite Bs_nth in HO by auto. exact HO.
    + intros k i Hk Hi Hne. destruct HO as ((_ & X & _) & _). rewrite X in Hk. destruct HP as (P1 & P2 & _).
      assert (Hb := P1 _ (nth_In _ (0, 0) Hk)).
      destruct (P2 (fst (nth k (b_bars (nth n Hom empty_basis)) (0, 0))) ltac:(lia)) as (P3 & _). specialize (P3 k Hk ltac:(unfold bbirth, bdeath; lia)). destruct P3 as [P3 _].
      destruct (Z_lt_le_dec (fst (nth k (b_bars (nth n Hom empty_basis)) (0, 0))) (fst (nth i (rb n) (0, 0)))) as [Hl|Hl]; [|exact Hl].
      exfalso. apply Hne. apply P3; rewrite ?Bs_bars; auto.
Qed.

(** Combinations of the columns of the image which are born. *)
Lemma row_im Hom Im Pre n : (0 < L)%nat -> module_persistence_homology rnd D Bs p = Ok (Hom, Im, Pre) -> (n < L)%nat ->
  (rb (Datatypes.S n) = [] -> b_dim (nth n Im empty_basis) = 0%nat) /\
  ((0 < b_dim (nth n Im empty_basis))%nat ->
   b_dim (nth n Im empty_basis) = length (b_bars (nth n Im empty_basis)) /\ ncols (b_coords (nth n Im empty_basis)) = b_dim (nth n Im empty_basis) /\ nrows (b_coords (nth n Im empty_basis)) = length (rb n) /\ wf_mat (b_coords (nth n Im empty_basis)) /\
   (forall i k, (i < length (rb n))%nat -> (k < b_dim (nth n Im empty_basis))%nat -> get (b_coords (nth n Im empty_basis)) i k mod p <> 0 -> fst (nth i (rb n) (0, 0)) <= fst (nth k (b_bars (nth n Im empty_basis)) (0, 0))) /\
   forall r c, r < max_r -> (forall k, c k <> 0 -> (k < b_dim (nth n Im empty_basis))%nat /\ fst (nth k (b_bars (nth n Im empty_basis)) (0, 0)) <= r) ->
     page2_bounds p Dist IN n0 nerve S d n r (fam_comb n (mapply (b_coords (nth n Im empty_basis)) c))).
Proof.
  intros HL E Hn. destruct (mph_good rnd p D Bs (row_input HL)) as [(H & J & P & E' & _ & _ & _ & _ & HJ)|[E' X]]; rewrite E' in E; [|discriminate].
  injection E as -> -> ->. rewrite Bs_len in HJ. specialize (HJ n Hn). split.
  { intros Hz. apply (Igood_zero rnd p D Bs (row_input HL) n _ HJ). rewrite Bs_bars. exact Hz. }
  intros Hpos. destruct HJ as [[X _]|(_ & CO & HS & HB & _)]; [lia|]. rewrite Bs_bars in HS, HB. rewrite (proj1 (Bs_ok n Hn)) in HS.
  destruct CO as ((_ & C1 & _) & C2 & C3 & C4 & _). rewrite (proj1 (Bs_ok n Hn)) in C2. split; [auto|]. split; [auto|]. split; [auto|]. split; [auto|]. split; [auto|].
  intros r c Hr Hc. set (v := mapply (b_coords (nth n Im empty_basis)) c).
  pose proof (read_bound p max_r Zc Bc dd D Bs g Hp cx_Z cx_B cx_Zm cx_Bm cx_BZ cx_lin cx_dZ cx_dB cx_dd cx_g cx_Dc cx_Db cx_Dd n r v Hr) as X. unfold comb in X. rewrite Bs_bars in X. apply X.
  split.
  - intros i Hi Hlt. destruct (Z.eq_dec (v i mod p) 0) as [Ez|Ez]; [exact Ez|exfalso]. unfold v, mapply in Ez.
    destruct (Zsum_nz_mod p _ _ p_pos Ez) as (k & Hk & Hne). rewrite C3 in Hk.
    destruct (Hc k) as [_ Hk2]; [intros X0; apply Hne; rewrite X0, Z.mul_0_r; apply Zmod_0_l|].
    assert (Hik := HS i k Hi Hk). lapply Hik; [lia|]. intros X0. apply Hne. rewrite Zmult_mod, X0. apply Zmod_0_l.
  - apply HB. exists c. split; [intros k Hk; rewrite <- C1; apply Hc; auto|]. intros i _. unfold v. rewrite Z.sub_diag. apply Zmod_0_l.
Qed.
End Complex.

Lemma over_iff n : (n < L)%nat -> over_zero Bs n <-> match n with O => False | Datatypes.S n' => classes n0 nerve S n d <> 0%nat /\ classes n0 nerve S n' d = 0%nat end.
Proof.
  intros Hn. destruct n as [|n]; [reflexivity|]. unfold over_zero. rewrite (proj1 (Bs_ok (Datatypes.S n) Hn)), (proj1 (Bs_ok n ltac:(lia))), !rb_len. lia.
Qed.

(** What one row of the first page computes. *)
Lemma first_row_page P P' : (0 < L)%nat -> first_page_row rnd S P d = Ok P' ->
  forall n, (n < L)%nat -> ~ over_zero Bs n /\ exists H, tget (h_hom P') 1 n d = Ok H /\
    barcode p (page2_cycle p Dist IN n0 nerve S d n) (page2_bounds p Dist IN n0 nerve S d n) max_r (b_bars H).
Proof.
  intros HL E n Hn. unfold first_page_row in E. rewrite (po_nerve _ _ _ _ _ _ _ _ _ _ PO) in E. fold L in E. rewrite row_bases in E. cbn [bind] in E. fold Bs in E.
  destruct row_diffs as (D & ED & LD & HD).
  match type of E with bind ?x _ = _ => replace x with (Ok D) in E end. cbn [bind] in E. rewrite (po_p _ _ _ _ _ _ _ _ _ _ PO) in E.
  destruct (row_mph D LD HD HL) as (Hom & Im & Pre & EH & L1 & L2 & L3). rewrite EH in E. cbn [bind] in E.
  destruct (add_output_higher P (combine (combine Hom Im) Pre) 0 d 1) as [P1|] eqn:EA; [|discriminate]. cbn [bind] in E.
  assert (HP1 : forall k, (k < L)%nat -> tget (h_hom P1) 1 k d = Ok (nth k Hom empty_basis)).
  { intros k Hk. pose proof (add_output_same _ P 0%nat d 1%nat P1 ltac:(lia) EA k (nth k Hom empty_basis) (nth k Im empty_basis) (nth k Pre None)) as X.
    replace (0 + k * 1)%nat with k in X by lia. replace (d - k * (1 - 1))%nat with d in X by lia. apply X.
    rewrite (nth_error_nth' _ (empty_basis, empty_basis, None)) by (rewrite !combine_length; lia). rewrite combine_nth by (rewrite combine_length; lia). rewrite combine_nth by lia. reflexivity. }
  assert (Hinv : forall Q, h_hom Q = h_hom P1 -> forall k Q', (if Nat.ltb 0 (b_dim (nth k Hom empty_basis)) then compute_two_page_representatives S Q k d else Ok Q) = Ok Q' -> h_hom Q' = h_hom P1).
  { intros Q HQ k Q' EQ. destruct (Nat.ltb _ _); [|injection EQ as <-; exact HQ]. apply two_page_hom in EQ. destruct EQ as [-> _]. exact HQ. }
  assert (Hfold : forall l Q Q', (forall k, In k l -> (k < L)%nat) -> h_hom Q = h_hom P1 -> foldM (fun (P : pages) (n : nat) => h <- tget (h_hom P) 1 n d ;; (if Nat.ltb 0 (b_dim h) then compute_two_page_representatives S P n d else Ok P)) l Q = Ok Q' -> h_hom Q' = h_hom P1).
  { intros l Q Q' Hl HQ. apply (foldM_inv _ (fun Q => h_hom Q = h_hom P1)); auto. intros s x s' Hx Hs Es. rewrite Hs, HP1 in Es by auto. cbn [bind] in Es. apply (Hinv s Hs x s' Es). }
  assert (Ho : ~ over_zero Bs n).
  { intros Ho. destruct n as [|n]; [destruct Ho|].
    pose proof (proj1 (over_iff (Datatypes.S n) Hn) Ho) as Hcl. cbv beta iota in Hcl.
    assert (Hin : In (Datatypes.S n) (seq 0 L)) by (apply in_seq; lia).
    destruct (foldM_split _ _ _ _ (Datatypes.S n) Hin E) as (l1 & l2 & s1 & s2 & El & F1 & F2 & _).
    assert (Hs1 : h_hom s1 = h_hom P1).
    { apply (Hfold l1 P1); auto. intros k Hk. assert (Hk' : In k (seq 0 L)) by (rewrite El; apply in_or_app; auto). apply in_seq in Hk'. lia. }
    rewrite Hs1, HP1 in F2 by auto. cbn [bind] in F2.
    assert (EHn : nth (Datatypes.S n) Hom empty_basis = row_base (Datatypes.S n)).
    { rewrite <- Bs_nth by auto. apply (mph_over_zero_aux rnd p D Bs (row_input D LD HD HL) Hom Im Pre EH); auto. rewrite Bs_len. auto. }
    rewrite EHn in F2. cbn [row_base b_dim] in F2. rewrite rb_len in F2.
    destruct (Nat.ltb_spec 0 (classes n0 nerve S (Datatypes.S n) d)) as [Lc|Lc]; [|lia].
    unfold compute_two_page_representatives in F2. rewrite Hs1, HP1 in F2 by auto. cbn [bind] in F2. rewrite EHn in F2. cbn [row_base b_dim b_coords] in F2. rewrite rb_len in F2.
    destruct (Nat.eqb_spec (classes n0 nerve S (Datatypes.S n) d) 0) as [X|_]; [lia|].
    assert (Hlev : lev (Datatypes.S n) <> []) by (intros X; apply (proj1 Hcl); unfold classes; fold (lev (Datatypes.S n)); rewrite X; reflexivity).
    destruct (cyc_ok _ _ _ _ _ _ _ _ _ HI S PO (Datatypes.S n) d Hn Hlev Hd) as [Ecyc _]. rewrite Ecyc in F2. cbn [bind] in F2. rewrite removelast_last in F2.
    unfold localize in F2. rewrite (spx_ok _ _ _ _ _ _ _ _ _ _ PO (Datatypes.S n)) in F2 by (unfold L in Hn; lia). cbn [bind] in F2. rewrite cumulate_length in F2.
    match type of F2 with bind (bind ?x _) _ = _ => destruct x as [st|] eqn:EF; [|discriminate] end.
    apply localize_fold_err in EF.
    - rewrite (dims_classes _ _ _ _ _ _ _ _ _ HI S PO (Datatypes.S n) d Hn ltac:(unfold m in Hd; lia)) in EF. lia.
    - intros X. apply (f_equal (@length nat)) in X. rewrite seq_length in X. cbn [length] in X. lia. }
  split; [exact Ho|]. exists (nth n Hom empty_basis). split.
  - rewrite (Hfold (seq 0 L) P1 P'); [|intros k Hk; apply in_seq in Hk; lia|reflexivity|exact E]. apply HP1. auto.
  - apply (row_barcode D LD HD Hom Im Pre n); auto.
Qed.
End Row.
