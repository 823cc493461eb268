(** * Lifts and the first differential (C45, C46) *)
From Verif Require Import Base ListX SortX Lin Gauss_arith Basis_model PH_model PH_lin PH_props Simp_model Spec_Simp Simp_lists Simp_diff Simp_props
  Spec_PH Spec_Rips Rips_bd Rips_chain Rips_props LC_model Spec_LC LC_props SS_model Spec_SS SS_inv SS_page SS_cech SS_lift.
From Coq Require Import Sorted Permutation Znumtheory.
Local Open Scope Z_scope.

Lemma nth_err_inv {A} (l : list A) i x d : nth_err l i = Ok x -> nth i l d = x.
Proof. unfold nth_err. destruct (nth_error l i) eqn:E; [|discriminate]. intros H. injection H as <-. apply nth_error_nth; auto. Qed.

Section Zig.
Variables (argsort : list Z -> list nat) (rnd : Z -> Z) (Dist : list (list Z)) (max_r max_dim p : Z)
  (IN : list (list (list nat))) (n0 : nat) (nerve : list (list simplex)).
Hypothesis HI : mv_input argsort Dist max_r max_dim p IN n0 nerve.
Variable S : ss.
Hypothesis PO : page_ok argsort rnd Dist max_r max_dim p IN n0 nerve S.
Let m := Z.to_nat max_dim.
Let HC := mv_cover _ _ _ _ _ _ _ _ HI.
Let ok := local_ok rnd Dist max_r max_dim p.
Let lev n := level n0 nerve n.
Let ins := ins_of IN.
Let loc := loc_of S.
Local Notation G := (simplices IN S).
Local Notation widths := (sizes IN n0 nerve S).
Local Notation vbd := (local_bd IN S).
Let Hp := mv_prime _ _ _ _ _ _ _ _ HI.
Lemma Hp1 : 1 < p. Proof. destruct Hp. lia. Qed.

(** ** Local cycles are cycles of the computed complex *)
Section Local.
Variables (n k : nat).
Hypothesis Hn : (n < length nerve)%nat.
Hypothesis Hk : (k < length (lev n))%nat.
Variable R : list (list Z).
Hypothesis OK : ok (ins n k) (loc n k) R.

Lemma csize_G d : csize R d = length (G n k d).
Proof. rewrite (lo_size _ _ _ _ _ _ _ _ OK). symmetry. apply map_length. Qed.

Lemma crad_rips d i r : (d <= m)%nat -> (i < length (G n k d))%nat -> crad R d i <= r <-> rips Dist d r (nth i (G n k d) []).
Proof.
  intros Hd Hi. set (T := nth i (G n k d) []).
  assert (HT : clique (length Dist) (near Dist max_r) d T /\ incl T (ins n k)).
  { apply (G_In argsort rnd Dist max_r max_dim p IN n0 nerve HI S PO n k Hn Hk d T Hd). apply nth_In. exact Hi. }
  destruct HT as ((L & Inc & Lt & _) & _). destruct d as [|d].
  - rewrite (vc_zero _ _ _ _ _ (lo_valid _ _ _ _ _ _ _ _ OK)) by (rewrite csize_G; auto). split.
    + intros H. split; [|auto]. split; [auto|]. split; [auto|]. split; [auto|]. intros u v Hu Hv Huv. exfalso.
      destruct T as [|a [|b T']]; cbn [length] in L; try discriminate. simpl in Hu, Hv. lia.
    + intros [_ H]. auto.
  - assert (Ld : diameter Dist T (crad R (Datatypes.S d) i)).
    { unfold T, G, simplices. unfold G, simplices in Hi. rewrite map_length in Hi.
      rewrite (nth_map (glob (ins_of IN n k)) _ i []) by auto. apply (lo_crad _ _ _ _ _ _ _ _ OK); auto. fold m. lia. }
    destruct Ld as [(u & v & Hu & Hv & Huv & E) H]. split.
    + intros Hr. split; [|pose proof (mv_nonneg _ _ _ _ _ _ _ _ HI u v ltac:(specialize (Lt v Hv); lia)); lia].
      split; [auto|]. split; [auto|]. split; [auto|]. intros a b Ha Hb Hab. specialize (H a b Ha Hb Hab). lia.
    + intros [(_ & _ & _ & Hc) _]. specialize (Hc u v Hu Hv Huv). lia.
Qed.

Lemma chain_iff d r v : (d <= m)%nat -> local_chain p Dist IN S n d k r v <-> chain_at p R d r v.
Proof.
  intros Hd. unfold local_chain, chain_at. split; intros H i Hne; destruct (H i Hne) as [H1 H2].
  - rewrite csize_G. split; auto. apply crad_rips; auto.
  - rewrite csize_G in H1. split; auto. apply crad_rips; auto.
Qed.

Lemma bd_G d v i : bd_of (l_Ds (loc n k)) R (Datatypes.S d) v i = vbd n d k v i.
Proof. unfold bd_of, local_bd. rewrite csize_G. reflexivity. Qed.

Lemma cycle_iff d r v : (d <= m)%nat -> local_cycle p Dist IN S n d k r v <-> cycle_at p (l_Ds (loc n k)) R d r v.
Proof.
  intros Hd. unfold local_cycle, cycle_at. rewrite chain_iff by auto. destruct d as [|d].
  - split; [|tauto]. intros [H _]. split; auto. intros i. unfold bd_of. cbn [bd_entry]. rewrite Zsum_0; [apply Zmod_0_l|]. intros; ring.
  - split; intros [H1 H2]; split; auto; intros i; [rewrite bd_G|rewrite <- bd_G]; auto.
Qed.

Lemma bounds_iff d r v : (d < m)%nat -> local_bounds p Dist IN S n d k r v <-> bounds_at p (l_Ds (loc n k)) R d r v.
Proof.
  intros Hd. unfold local_bounds, bounds_at. split; intros (w & H1 & H2); exists w; (split; [apply chain_iff; auto|]); intros i.
  - rewrite bd_G. auto.
  - rewrite <- bd_G. auto.
Qed.
End Local.

(** ** The Cech differential preserves cycles *)
Lemma good_empty ws : good ws (empty_chains (length ws)).
Proof.
  unfold empty_chains. induction ws as [|w ws IH]; cbn [length repeat]; [constructor|]. constructor; [|exact IH].
  split; [constructor|]. reflexivity.
Qed.

Lemma value_empty N k g j : value (empty_chains N) k g j = 0.
Proof.
  unfold value, empty_chains. destruct (Nat.lt_ge_cases k N); [rewrite nth_repeat_lt by auto|rewrite nth_overflow by (rewrite repeat_length; auto)]; reflexivity.
Qed.

Lemma good_out ws c k g j : good ws c -> (nth k ws 0 <= j)%nat -> value c k g j = 0.
Proof.
  intros H Hj. unfold value. destruct (Nat.lt_ge_cases k (length ws)) as [Hk|Hk].
  2:{ rewrite nth_overflow by (rewrite (good_length _ _ H); auto). reflexivity. }
  pose proof (good_nth _ _ _ H Hk) as [_ He]. unfold at_entry. destruct (find_idx _ _) as [i|]; auto.
  destruct (le_coord _) as [|w rows]; cbn [lrows]; [destruct i, j; reflexivity|]. destruct He as (-> & _ & F).
  destruct (Nat.lt_ge_cases i (length rows)) as [Hi|Hi].
  - apply nth_overflow. rewrite Forall_forall in F. rewrite (F (nth i rows [])) by (apply nth_In; auto). auto.
  - rewrite (nth_overflow rows) by auto. destruct j; reflexivity.
Qed.

Lemma sizes_nth n deg k : (k < length (lev n))%nat -> nth k (widths n deg) 0%nat = length (G n k deg).
Proof. intros H. unfold sizes. rewrite nth_map_seq by auto. reflexivity. Qed.

Lemma vbd_out n deg k v j : (n < length nerve)%nat -> (k < length (lev n))%nat -> (deg < m)%nat -> (length (G n k deg) <= j)%nat -> vbd n deg k v j = 0.
Proof.
  intros Hn Hk Hd Hj. destruct (loc_ok _ _ _ _ _ _ _ _ _ S PO n k Hn Hk) as [R OK].
  destruct (lo_diff _ _ _ _ _ _ _ _ OK deg Hd) as (W & N & _). apply Zsum_0. intros i _. unfold get, vget. rewrite nth_overflow; [ring|].
  set (D := nth deg _ _) in *. unfold col. unfold G, simplices in Hj. rewrite map_length in Hj.
  destruct (Nat.lt_ge_cases i (length (cols D))) as [Hi|Hi].
  - unfold wf_mat in W. rewrite Forall_forall in W. rewrite (W (nth i (cols D) [])) by (apply nth_In; auto). rewrite N. exact Hj.
  - rewrite nth_overflow by auto. simpl. lia.
Qed.

Theorem cech_cycle n deg start c k g r : (Datatypes.S n < length nerve)%nat -> (deg <= m)%nat -> has_cofaces n0 nerve n ->
  good (widths (Datatypes.S n) deg) start -> cech_diff S n deg start = Ok c -> (k < length (lev n))%nat ->
  (forall s, (s < length (lev (Datatypes.S n)))%nat -> local_cycle p Dist IN S (Datatypes.S n) deg s r (value start s g)) ->
  local_cycle p Dist IN S n deg k r (value c k g).
Proof.
  intros Hn Hd Hc Hg E Hk Hcyc.
  destruct (cech_diff_ok _ _ _ _ _ _ _ _ _ HI S PO n deg start Hn Hd Hc Hg) as (c0 & E0 & Hgc & _). rewrite E in E0. injection E0 as <-.
  change (good (widths n deg) c) in Hgc.
  split.
  - intros j Hne. destruct (Nat.lt_ge_cases j (length (G n k deg))) as [Hj|Hj].
    2:{ exfalso. apply Hne. rewrite (good_out (widths n deg)); [apply Zmod_0_l|auto|rewrite sizes_nth by auto; auto]. }
    split; [auto|]. set (T := nth j (G n k deg) []).
    destruct (loc_ok _ _ _ _ _ _ _ _ _ S PO n k ltac:(lia) Hk) as [R OK].
    destruct (Z_le_gt_dec (crad R deg j) r) as [H|H]; [apply (crad_rips n k ltac:(lia) Hk R OK deg j r Hd Hj); auto|].
    exfalso. apply Hne. apply (z_iff p _ Hp1). rewrite (gval_index _ _ _ _ _ _ _ _ _ HI S PO c n deg k g j) by (auto; lia).
    rewrite (cech_formula _ _ _ _ _ _ _ _ _ HI S PO n deg start c Hn Hd Hc Hg E k g _ Hk).
    rewrite (Zsum_cong0 p); [apply cong_eq; ring|]. intros s Hs. unfold gval.
    change (SS_cech.G IN S n k deg) with (G n k deg). fold T.
    destruct (on_simplices_cases (SS_cech.G IN S (Datatypes.S n) s deg) (value start s g) T (G_NoDup _ _ _ _ _ _ _ _ _ HI S PO (Datatypes.S n) s Hn Hs deg)) as [(j' & Hj' & ET & ->)|[Hno ->]]; [|apply cong_eq; ring].
    destruct (cong_dec p (value start s g j') 0) as [Hz|Hnz]; [rewrite Hz; apply cong_eq; ring|]. exfalso.
    destruct (Hcyc s Hs) as [Hch _]. destruct (Hch j') as [_ Hr]; [intros C; apply Hnz; apply (z_iff p _ Hp1); auto|].
    change (nth j' (SS_cech.G IN S (Datatypes.S n) s deg) []) with (nth j' (G (Datatypes.S n) s deg) []) in ET. rewrite ET in Hr.
    apply (crad_rips n k ltac:(lia) Hk R OK deg j r Hd Hj) in Hr. lia.
  - destruct deg as [|deg]; [exact I|]. intros j.
    destruct (Nat.lt_ge_cases j (length (G n k deg))) as [Hj|Hj]; [|rewrite vbd_out by (auto; lia); apply Zmod_0_l].
    set (c' := empty_chains (length (widths (Datatypes.S n) deg))).
    assert (Hg' : good (widths (Datatypes.S n) deg) c') by apply good_empty.
    destruct (cech_diff_ok _ _ _ _ _ _ _ _ _ HI S PO n deg c' Hn ltac:(lia) Hc Hg') as (d' & E' & Hgd & HV).
    apply (z_iff p _ Hp1).
    assert (X := cech_vertical _ _ _ _ _ _ _ _ _ HI S PO n deg start c' c d' g Hn Hd Hc Hg Hg').
    specialize (X ltac:(intros s j0 Hs Hj0; unfold c'; rewrite value_empty; symmetry; apply (z_iff p _ Hp1); apply (Hcyc s Hs)) E E' k j Hk Hj).
    rewrite HV in X by auto. rewrite cong_mod in X. rewrite Zsum_0, Z.add_0_r in X; [exact X|].
    intros s Hs. unfold term. cbn [fst snd]. unfold c'.
    unfold on_simplices. rewrite Zsum_0; [ring|]. intros i Hi. rewrite value_empty. destruct (list_eq_dec _ _ _); reflexivity.
Qed.

(** ** The windows of the first page *)
Definition dims (n deg : nat) : list nat := map (fun k => b_dim (hom_of S n k deg)) (seq 0 (length (level n0 nerve n))).

Lemma dims_nth n deg k : (k < length (lev n))%nat -> nth k (dims n deg) 0%nat = b_dim (hom_of S n k deg).
Proof. intros H. unfold dims. rewrite nth_map_seq by auto. reflexivity. Qed.

Lemma dims_length n deg : length (dims n deg) = length (lev n).
Proof. unfold dims. rewrite map_length, seq_length. reflexivity. Qed.

Lemma hom0_of n k deg : (n < length nerve)%nat -> (k < length (lev n))%nat -> (deg <= m)%nat ->
  hom0 (loc n k) deg = Ok (hom_of S n k deg) /\ b_dim (hom_of S n k deg) = length (b_bars (hom_of S n k deg)).
Proof.
  intros Hn Hk Hd. destruct (loc_ok _ _ _ _ _ _ _ _ _ S PO n k Hn Hk) as [R OK].
  destruct (ok_hom _ _ _ _ _ _ _ _ _ HI _ _ _ deg OK Hd) as (h & E & Ed).
  assert (Eh : hom_of S n k deg = h) by (apply (nth_err_inv _ _ _ empty_basis E)).
  rewrite Eh. auto.
Qed.

Lemma cyc_ok n deg : (n < length nerve)%nat -> lev n <> [] -> (deg < m)%nat ->
  cycle_dims S n deg = Ok (cumulate 0 (dims n deg) ++ [0%nat]) /\ page_dim1 S n deg = Ok (list_sum (dims n deg)).
Proof.
  intros Hn Hne Hd. unfold cycle_dims, page_dim1.
  rewrite (nth_err_nth (s_cols S) n no_column) by (rewrite (po_cols _ _ _ _ _ _ _ _ _ _ PO); lia). cbn [bind].
  set (C := nth n (s_cols S) no_column).
  pose proof (po_col _ _ _ _ _ _ _ _ _ _ PO n Hn) as E. pose proof (po_count _ _ _ _ _ _ _ _ _ _ PO n Hn) as L. fold C in E, L.
  cbv beta in L, E. fold (lev n) in L, E.
  destruct (add_output_first_ok m (c_loc C)) as (c & Ec & Hloc & L1 & L2 & L3 & H).
  { intros X. rewrite X in L. cbn [length] in L. apply Hne. apply length_zero_iff_nil. auto. }
  { intros d l Hdl Hl. apply (In_nth _ _ no_local) in Hl. destruct Hl as (k & Hk & <-). rewrite L in Hk.
    change (nth k (c_loc C) no_local) with (loc n k). destruct (hom0_of n k d Hn Hk ltac:(lia)) as [E1 E2]. eauto. }
  rewrite L in Ec. fold m in E. rewrite E in Ec. injection Ec as <-.
  destruct (H deg Hd) as (hs & Lh & Nh & _ & Ecyc & Edim & _).
  assert (Eh : map b_dim hs = dims n deg).
  { apply (nth_ext _ _ 0%nat 0%nat); rewrite map_length; [rewrite dims_length; lia|]. intros k Hk. rewrite Lh, L in Hk.
    rewrite dims_nth by auto. rewrite (nth_map b_dim hs k empty_basis) by lia. specialize (Nh k no_local ltac:(lia)).
    change (nth k (c_loc C) no_local) with (loc n k) in Nh. destruct (hom0_of n k deg Hn Hk ltac:(lia)) as [E1 _]. rewrite E1 in Nh. injection Nh as <-. reflexivity. }
  rewrite Eh in *. rewrite (nth_err_nth (c_cyc C) deg []) by lia. rewrite (nth_err_nth (c_dim C) deg 0%nat) by lia. rewrite Ecyc, Edim. auto.
Qed.

Lemma windows_ok n deg k : (k < length (lev n))%nat -> let cyc := cumulate 0 (dims n deg) ++ [0%nat] in
  prev_dim cyc k = Ok (list_sum (firstn k (dims n deg))) /\
  nth_err cyc k = Ok (list_sum (firstn k (dims n deg)) + b_dim (hom_of S n k deg))%nat.
Proof.
  intros Hk cyc. assert (Hn : forall i, (i < length (lev n))%nat -> nth_err cyc i = Ok (list_sum (firstn (Datatypes.S i) (dims n deg)))).
  { intros i Hi. unfold cyc. rewrite (nth_err_nth _ i 0%nat) by (rewrite app_length, cumulate_length, dims_length; simpl; lia).
    rewrite app_nth1 by (rewrite cumulate_length, dims_length; auto). rewrite cumulate_nth by (rewrite dims_length; auto). reflexivity. }
  split.
  - destruct k as [|k].
    + cbn [prev_dim firstn]. unfold cyc. rewrite last_last. destruct (cumulate 0 (dims n deg)); reflexivity.
    + cbn [prev_dim]. rewrite Hn by lia. reflexivity.
  - rewrite Hn by auto. rewrite list_sum_firstn_S by (rewrite dims_length; auto). rewrite dims_nth by auto. reflexivity.
Qed.

(** ** C46 *)
Lemma find_idx_take (gens idx : list nat) i : NoDup gens -> NoDup idx -> (forall x, In x idx -> (x < length gens)%nat) -> (i < length gens)%nat ->
  find_idx (Nat.eqb (nth i gens 0%nat)) (take 0%nat gens idx) = find_idx (Nat.eqb i) idx.
Proof.
  intros Hg Hi Hlt Hil. unfold take. induction idx as [|x idx IH]; [reflexivity|]. cbn [map]. rewrite !find_idx_cons.
  rewrite IH; [|inversion Hi; auto|intros y Hy; apply Hlt; simpl; auto].
  destruct (Nat.eqb_spec i x) as [->|Hne]; [rewrite Nat.eqb_refl; reflexivity|].
  destruct (Nat.eqb_spec (nth i gens 0%nat) (nth x gens 0%nat)) as [E|]; auto. exfalso. apply Hne.
  apply (proj1 (NoDup_nth gens 0%nat) Hg); auto. apply Hlt. simpl; auto.
Qed.

(** The lift assembled from the coefficients [gammas]. *)
Definition lift_of (pre gammas : mat) (gens : list nat) : lentry :=
  let P := mmul pre gammas in
  let nonzero := filter (fun i => vany (col gammas i)) (seq 0 (ncols gammas)) in
  if Nat.ltb 0 (length nonzero) then
    LEntry (take 0%nat gens nonzero) (LMat (nrows P) (map (fun i => map (fun x => (- x) mod p) (col P i)) nonzero))
  else LEntry [] LNil.

Lemma increasing_take gens idx : increasing gens -> increasing idx -> (forall x, In x idx -> (x < length gens)%nat) -> increasing (take 0%nat gens idx).
Proof.
  intros Hg Hi Hlt. unfold take. induction Hi as [|x l Hi IH Hx]; cbn [map]; constructor.
  - apply IH. intros y Hy. apply Hlt. simpl; auto.
  - apply Forall_forall. intros y Hy. apply in_map_iff in Hy. destruct Hy as (z & <- & Hz). rewrite Forall_forall in Hx.
    apply increasing_nth; auto. split; [apply Hx; auto|]. apply Hlt. simpl; auto.
Qed.

Lemma lift_of_ok pre gammas gens : increasing gens -> ncols gammas = length gens ->
  good_entry (nrows pre) (lift_of pre gammas gens) /\ length (le_ref (lift_of pre gammas gens)) = length (lrows (le_coord (lift_of pre gammas gens))) /\
  incl (le_ref (lift_of pre gammas gens)) gens /\
  (forall g x, ~ In g gens -> at_entry (lift_of pre gammas gens) g x = 0) /\
  (forall i x, (i < length gens)%nat -> (x < nrows pre)%nat -> cong p (at_entry (lift_of pre gammas gens) (nth i gens 0%nat) x)
     (- Zsum (ncols pre) (fun a => get pre x a * get gammas a i))) /\
  forall g x, (nrows pre <= x)%nat -> at_entry (lift_of pre gammas gens) g x = 0.
Proof.
  intros Hg Hc. unfold lift_of. set (P := mmul pre gammas). set (nz := filter _ _).
  assert (Hnz : forall i, In i nz -> (i < length gens)%nat).
  { intros i Hi. apply filter_In in Hi. destruct Hi as [Hi _]. apply in_seq in Hi. lia. }
  assert (Inz : increasing nz) by (apply filter_sorted, seq_sorted).
  assert (ND : NoDup gens) by (apply increasing_NoDup; auto). assert (NDz : NoDup nz) by (apply increasing_NoDup; auto).
  assert (HP : forall i x, (i < length gens)%nat -> (x < nrows pre)%nat -> vget (col P i) x = Zsum (ncols pre) (fun a => get pre x a * get gammas a i)).
  { intros i x Hi Hx. unfold col, P, mmul. cbn [cols]. unfold ncols in Hc. rewrite (@nth_map vec vec (mvmul pre) (cols gammas) i []) by lia.
    unfold vget at 1. rewrite vget_mvmul by auto. reflexivity. }
  assert (HL : forall i, (i < length gens)%nat -> length (col P i) = nrows pre).
  { intros i Hi. unfold col, P, mmul. cbn [cols]. unfold ncols in Hc. rewrite (@nth_map vec vec (mvmul pre) (cols gammas) i []) by lia. apply mvmul_length. }
  destruct (Nat.ltb_spec 0 (length nz)) as [Hpos|Hpos].
  - split; [|split; [|split; [|split; [|split]]]].
    + split; cbn [le_ref le_coord]; [apply increasing_take; auto|]. split; [reflexivity|]. unfold take. rewrite !map_length. split; [reflexivity|].
      apply Forall_forall. intros v Hv. apply in_map_iff in Hv. destruct Hv as (i & <- & Hi). rewrite map_length. apply HL. auto.
    + cbn [le_ref le_coord lrows]. unfold take. rewrite !map_length. reflexivity.
    + cbn [le_ref]. intros g Hgi. unfold take in Hgi. apply in_map_iff in Hgi. destruct Hgi as (i & <- & Hi). apply nth_In. auto.
    + intros g x Hno. unfold at_entry. cbn [le_ref]. rewrite find_idx_notin; auto. intros Hin. apply Hno. unfold take in Hin.
      apply in_map_iff in Hin. destruct Hin as (i & <- & Hi). apply nth_In. auto.
    + intros i x Hi Hx. unfold at_entry. cbn [le_ref le_coord lrows]. rewrite find_idx_take by auto.
      destruct (find_idx (Nat.eqb i) nz) as [a|] eqn:Ea.
      * destruct (find_idx_Some _ _ _ 0%nat Ea) as (Ha & Ea' & _). apply Nat.eqb_eq in Ea'.
        rewrite (nth_map (fun i => map (fun x => (- x) mod p) (col P i)) nz a 0%nat) by auto. rewrite <- Ea'.
        fold (vget (map (fun x0 => (- x0) mod p) (col P i)) x). rewrite vget_negmod. rewrite HP by auto. apply cong_mod.
      * assert (Hz : forall a, get gammas a i = 0).
        { apply vany_false. destruct (vany (col gammas i)) eqn:Ev; auto. exfalso. apply find_idx_None with (x := i) in Ea.
          - rewrite Nat.eqb_refl in Ea. discriminate.
          - apply filter_In. split; auto. apply in_seq. lia. }
        rewrite Zsum_0; [reflexivity|]. intros a _. rewrite Hz. ring.
    + intros g x Hx. unfold at_entry. cbn [le_ref le_coord lrows]. destruct (find_idx _ _) as [a|] eqn:Ea; auto.
      destruct (find_idx_Some _ _ _ 0%nat Ea) as (Ha & _). unfold take in Ha. rewrite map_length in Ha.
      rewrite (nth_map (fun i => map (fun x => (- x) mod p) (col P i)) nz a 0%nat) by auto. apply nth_overflow. rewrite map_length, HL; auto.
      apply Hnz, nth_In. auto.
  - assert (nz = []) as E0 by (apply length_zero_iff_nil; lia).
    split; [split; [constructor|reflexivity]|]. split; [reflexivity|]. split; [intros x []|]. split; [reflexivity|]. split; [|reflexivity].
    intros i x Hi Hx. change (at_entry (LEntry [] LNil) (nth i gens 0%nat) x) with 0.
    assert (Hz : forall a, get gammas a i = 0).
    { apply vany_false. destruct (vany (col gammas i)) eqn:Ev; auto. exfalso. assert (In i nz) as Hin.
      - apply filter_In. split; auto. apply in_seq. lia.
      - rewrite E0 in Hin. destruct Hin. }
    rewrite Zsum_0; [reflexivity|]. intros a _. rewrite Hz. ring.
Qed.

Lemma scatter_ok nR gens betas : increasing gens -> (forall g, In g gens -> (g < nR)%nat) ->
  nrows (scatter_rows nR gens betas) = nR /\ ncols (scatter_rows nR gens betas) = nrows betas /\
  Forall (fun v => length v = nR) (cols (scatter_rows nR gens betas)) /\
  (forall g h, ~ In g gens -> get (scatter_rows nR gens betas) g h = 0) /\
  (forall i h, (i < length gens)%nat -> (h < nrows betas)%nat -> get (scatter_rows nR gens betas) (nth i gens 0%nat) h = get betas h i) /\
  forall g h, (nrows betas <= h)%nat -> get (scatter_rows nR gens betas) g h = 0.
Proof.
  intros Hg Hlt. unfold scatter_rows. split; [reflexivity|]. split; [unfold ncols; cbn [cols]; rewrite map_length, seq_length; reflexivity|].
  split; [cbn [cols]; apply Forall_forall; intros v Hv; apply in_map_iff in Hv; destruct Hv as (h & <- & _); rewrite map_length, seq_length; reflexivity|].
  assert (Hget : forall g h, (h < nrows betas)%nat -> (g < nR)%nat -> get (scatter_rows nR gens betas) g h = match find_idx (Nat.eqb g) gens with Some i => get betas h i | None => 0 end).
  { intros g h Hh Hgn. unfold get at 1, col, scatter_rows. cbn [cols]. rewrite nth_map_seq by auto. cbn [Nat.add].
    unfold vget. rewrite nth_map_seq by auto. reflexivity. }
  assert (Hout : forall g h, (nrows betas <= h)%nat -> get (scatter_rows nR gens betas) g h = 0).
  { intros g h Hh. unfold get, col, scatter_rows. cbn [cols]. rewrite nth_overflow by (rewrite map_length, seq_length; auto). unfold vget. destruct g; reflexivity. }
  split; [|split].
  - intros g h Hno. destruct (Nat.lt_ge_cases h (nrows betas)) as [Hh|Hh]; [|apply Hout; auto].
    destruct (Nat.lt_ge_cases g nR) as [Hgn|Hgn].
    + fold (scatter_rows nR gens betas). rewrite Hget by auto. rewrite find_idx_notin; auto.
    + unfold get, col. cbn [cols]. rewrite nth_map_seq by auto. unfold vget. apply nth_overflow. rewrite map_length, seq_length. auto.
  - intros i h Hi Hh. fold (scatter_rows nR gens betas). rewrite Hget by (auto; apply Hlt, nth_In; auto). rewrite find_idx_nth; auto. apply increasing_NoDup; auto.
  - exact Hout.
Qed.

(** The outcome [o] of [cech_diff_and_lift_local] for the Cech image [e]: the image plus the boundary of the lift is the
    combination of homology classes. *)
Definition zigzag (n deg k : nat) (R : list Z) (e : lentry) (o : option (mat * list nat * lcoord)) : Prop :=
  let H := hom_of S n k deg in
  match o with
  | None => le_ref e = []
  | Some (B, ref, coord) =>
      nrows B = length R /\ ncols B = length (b_bars H) /\ Forall (fun v => length v = length R) (cols B) /\
      good_entry (length (G n k (Datatypes.S deg))) (LEntry ref coord) /\ length ref = length (lrows coord) /\ incl ref (le_ref e) /\
      (forall g h, 0 <= get B g h < p) /\
      forall g, (forall h, get B g h <> 0 -> In g (le_ref e) /\ (h < length (b_bars H))%nat /\ bbirth (b_bars H) h <= nth g R 0 /\ (nth g R 0 < bdeath (b_bars H) h \/ max_r <= bdeath (b_bars H) h)) /\
        local_chain p Dist IN S n (Datatypes.S deg) k (nth g R 0) (at_entry (LEntry ref coord) g) /\
        forall j, cong p (at_entry e g j + vbd n deg k (at_entry (LEntry ref coord) g) j)
                         (Zsum (length (b_bars H)) (fun h => get B g h * get (b_coords H) j h))
  end.

Lemma good_entry_out w e g j : good_entry w e -> (w <= j)%nat -> at_entry e g j = 0.
Proof.
  intros [_ He] Hj. unfold at_entry. destruct (find_idx _ _) as [i|]; auto.
  destruct (le_coord _) as [|w' rows]; cbn [lrows]; [destruct i, j; reflexivity|]. destruct He as (-> & _ & F).
  destruct (Nat.lt_ge_cases i (length rows)) as [Hi|Hi].
  - apply nth_overflow. rewrite Forall_forall in F. rewrite (F (nth i rows [])) by (apply nth_In; auto). auto.
  - rewrite (nth_overflow rows) by auto. destruct j; reflexivity.
Qed.

Lemma take_err_lt {A} (l : list A) : forall idx out, take_err l idx = Ok out -> forall i, In i idx -> (i < length l)%nat.
Proof.
  induction idx as [|a idx IH]; intros out E i Hi; [destruct Hi|]. unfold take_err in *. cbn [mapM] in E.
  destruct (nth_err l a) as [x|] eqn:Ex; [|discriminate]. cbn [bind] in E. destruct (mapM (nth_err l) idx) as [o|] eqn:Eo; [|discriminate].
  destruct Hi as [->|Hi]; [|apply (IH o); auto]. unfold nth_err in Ex. destruct (nth_error l i) eqn:En; [|discriminate]. apply nth_error_Some. congruence.
Qed.

Section ZigLocal.
Variables (n deg k : nat) (start : chains) (R : list Z).
Hypothesis Hn : (Datatypes.S n < length nerve)%nat.
Hypothesis Hk : (k < length (lev n))%nat.
Hypothesis Hd : (deg < m)%nat.
Hypothesis Hc : has_cofaces n0 nerve n.
Hypothesis Hg : good (widths (Datatypes.S n) deg) start.

(** What is known of the image under the Cech differential. *)
Lemma zig_chain : exists gens coord, cech_diff_local S start n deg k = Ok (gens, coord) /\
  good_entry (length (G n k deg)) (LEntry gens coord) /\ (coord = LNil <-> gens = []) /\
  (forall g, In g gens -> exists s, In g (le_ref (nth s start (LEntry [] LNil)))) /\
  forall c, cech_diff S n deg start = Ok c -> forall g j, at_entry (LEntry gens coord) g j = value c k g j.
Proof.
  destruct (cech_diff_local_ok _ _ _ _ _ _ _ _ _ HI S PO n deg k start Hn Hk ltac:(unfold m in Hd; lia) Hg) as (gens & coord & E & H1 & H2 & H3 & H4).
  { apply (cofaces_nonzero _ _ _ _ _ _ _ _ _ HI S PO n k ltac:(lia) Hc Hk). }
  exists gens, coord. split; [auto|]. split; [exact H1|]. split; [auto|].
  split; [intros g Hgi; apply H2 in Hgi; destruct Hgi as (s & _ & _ & Hs); exists s; exact Hs|].
  intros c Ec g j.
  destruct (cech_diff_ok _ _ _ _ _ _ _ _ _ HI S PO n deg start Hn ltac:(unfold m in Hd; lia) Hc Hg) as (c0 & E0 & Hgc & HV). rewrite Ec in E0. injection E0 as <-.
  destruct (Nat.lt_ge_cases j (length (G n k deg))) as [Hj|Hj].
  - rewrite H4 by exact Hj. rewrite HV by auto. reflexivity.
  - rewrite (good_entry_out _ _ g j H1 Hj). symmetry. apply (good_out (widths n deg)); auto. rewrite sizes_nth; auto.
Qed.

Hypothesis Hne : b_bars (hom_of S n k deg) <> [].

Theorem zig_sound o : cech_diff_and_lift_local S R start n deg k = Ok o ->
  exists gens coord, cech_diff_local S start n deg k = Ok (gens, coord) /\ zigzag n deg k R (LEntry gens coord) o.
Proof.
  intros Eo. destruct zig_chain as (gens & coord & E & Hge & Hnil & _). exists gens, coord. split; [auto|].
  unfold cech_diff_and_lift_local in Eo.
  assert (Hlev : lev n <> []) by (intros X; rewrite X in Hk; simpl in Hk; lia).
  destruct (cyc_ok n deg ltac:(lia) Hlev Hd) as [Ecyc _]. rewrite Ecyc in Eo. cbn [bind] in Eo.
  destruct (windows_ok n deg k Hk) as [Ep En]. cbv zeta in Ep, En. rewrite Ep in Eo. cbn [bind] in Eo. rewrite En in Eo. cbn [bind] in Eo.
  destruct (hom0_of n k deg ltac:(lia) Hk ltac:(lia)) as [Eh Edim].
  set (H := hom_of S n k deg) in *. set (prev := list_sum _) in *.
  assert (Hdim : b_dim H <> 0%nat) by (rewrite Edim; intros X; apply Hne, length_zero_iff_nil; auto).
  destruct (Nat.eqb_spec prev (prev + b_dim H)) as [|_]; [lia|].
  rewrite E in Eo. cbn [bind] in Eo. destruct (Nat.eqb_spec (length gens) 0) as [H0|H0].
  { injection Eo as <-. unfold zigzag. apply length_zero_iff_nil. auto. }
  assert (HRg : forall g, In g gens -> (g < length R)%nat).
  { destruct (take_err R gens) as [rs|] eqn:Er; [|discriminate]. intros g Hgi. apply (take_err_lt R gens rs Er g Hgi). }
  rewrite (take_err_pure R gens 0) in Eo by auto. cbn [bind] in Eo.
  destruct coord as [|w rows]; [discriminate|].
  destruct Hge as [Hinc (Hw & Lrows & Frows)]. cbn [le_ref le_coord] in *. subst w.
  destruct (first_page_local_lift S n deg _ rows _ k) as [gb|] eqn:Elift; [|discriminate]. cbn [bind] in Eo.
  destruct (loc_ok _ _ _ _ _ _ _ _ _ S PO n k ltac:(lia) Hk) as [Rs OK]. fold (loc n k) in OK.
  pose proof (lo_Ds _ _ _ _ _ _ _ _ OK) as LD. fold m in LD.
  pose proof (the_local_ok _ _ _ _ _ _ _ _ _ _ PO n k ltac:(lia) Hk) as El. fold (loc n k) in El.
  rewrite <- (csize_G n k Rs OK deg) in Frows, Elift.
  pose proof (local_lift_sound rnd p max_r _ _ Rs _ Hp (lo_valid _ _ _ _ _ _ _ _ OK) (lo_ph _ _ _ _ _ _ _ _ OK) S n k deg (loc n k) ltac:(lia)
    (po_p _ _ _ _ _ _ _ _ _ _ PO) El eq_refl rows (map (fun i => nth i R 0) gens) Frows ltac:(rewrite map_length; lia) gb Elift) as HS.
  destruct gb as [[gammas betas]|]; [|discriminate].
  change (nth deg (ph_hom (l_out (loc n k))) empty_basis) with H in HS. set (I := nth deg (ph_im (l_out (loc n k))) empty_basis) in *.
  destruct HS as (N1 & N2 & C1 & C2 & Rg & Rb & HS).
  destruct (Nat.eqb_spec (nrows betas) (prev + b_dim H - prev)) as [Enb|]; [|discriminate]. cbn [negb] in Eo.
  rewrite El in Eo. cbn [bind] in Eo.
  destruct (ph_lengths rnd p max_r _ _ Rs _ Hp (lo_valid _ _ _ _ _ _ _ _ OK) (lo_ph _ _ _ _ _ _ _ _ OK)) as (_ & _ & LP).
  unfold preim0 in Eo. rewrite (nth_err_nth _ (1 + deg) (Mat 0 [])) in Eo by lia. cbn [bind] in Eo.
  set (pre := nth (1 + deg) (ph_preim (l_out (loc n k))) (Mat 0 [])) in *.
  destruct (C22_aux rnd p max_r _ _ Rs _ Hp (lo_valid _ _ _ _ _ _ _ _ OK) (lo_ph _ _ _ _ _ _ _ _ OK) deg ltac:(lia)) as (P1 & P2 & P3 & P4 & _).
  cbv zeta in P1, P2, P3, P4. fold I in P1, P2, P4. change (nth (Datatypes.S deg) (ph_preim (l_out (loc n k))) (Mat 0 [])) with pre in P1, P3, P4.
  unfold matmul in Eo. rewrite P1, N1, Nat.eqb_refl in Eo. cbn [bind] in Eo.
  assert (Eo' : o = Some (scatter_rows (length R) gens betas, le_ref (lift_of pre gammas gens), le_coord (lift_of pre gammas gens))).
  { unfold lift_of. rewrite (po_p _ _ _ _ _ _ _ _ _ _ PO) in Eo. destruct (Nat.ltb _ _); injection Eo as <-; reflexivity. }
  clear Eo. subst o. unfold zigzag. fold H.
  destruct (scatter_ok (length R) gens betas Hinc HRg) as (S1 & S2 & S3 & S4 & S5 & S6).
  destruct (lift_of_ok pre gammas gens Hinc ltac:(lia)) as (L1 & L2 & L3 & L4 & L5 & L6).
  set (B := scatter_rows (length R) gens betas) in *. set (L := lift_of pre gammas gens) in *.
  replace (LEntry (le_ref L) (le_coord L)) with L by (destruct L; reflexivity).
  split; [auto|]. split; [lia|]. split; [auto|]. split; [rewrite <- (csize_G n k Rs OK), <- P3; auto|]. split; [auto|]. split; [auto|].
  assert (Hcases : forall g, In g gens -> exists i, (i < length gens)%nat /\ nth i gens 0%nat = g) by (intros g Hgi; apply In_nth; auto).
  assert (Hdec : forall g, In g gens \/ ~ In g gens) by (intros g; destruct (in_dec Nat.eq_dec g gens); auto).
  assert (Hrad : forall i, (i < length gens)%nat -> nth i (map (fun i0 => nth i0 R 0) gens) 0 = nth (nth i gens 0%nat) R 0).
  { intros i Hi. rewrite (nth_map (fun i0 => nth i0 R 0) gens i 0%nat) by auto. reflexivity. }
  split.
  { intros g h. destruct (Hdec g) as [Hin|Hno]; [|rewrite S4 by auto; lia].
    destruct (Hcases g Hin) as (i & Hi & <-). destruct (Nat.lt_ge_cases h (nrows betas)); [rewrite S5 by auto; apply Rb|rewrite S6 by auto; lia]. }
  intros g. destruct (Hdec g) as [Hin|Hno].
  2:{ split; [intros h Hb; rewrite S4 in Hb by auto; congruence|].
      split; [intros x Hx; rewrite L4 in Hx by auto; rewrite Zmod_0_l in Hx; congruence|].
      intros j. apply cong_eq. unfold at_entry at 1. cbn [le_ref]. rewrite find_idx_notin by auto.
      unfold local_bd. rewrite !Zsum_0; [ring| |]; intros x _; [rewrite S4 by auto|rewrite L4 by auto]; ring. }
  destruct (Hcases g Hin) as (i & Hi & Eg).
  destruct (HS i ltac:(lia)) as (T1 & T2 & T3). rewrite Hrad, Eg in T1, T2 by auto.
  assert (HLift : forall x, (x < csize Rs (Datatypes.S deg))%nat -> cong p (at_entry L g x) (- Zsum (length (b_bars I)) (fun a => get pre x a * get gammas a i))).
  { intros x Hx. rewrite <- Eg. rewrite L5 by (auto; lia). rewrite P1. reflexivity. }
  split; [|split].
  - intros h Hb. destruct (Nat.lt_ge_cases h (nrows betas)) as [Hh|Hh]; [|rewrite S6 in Hb by auto; congruence].
    rewrite <- Eg, S5 in Hb by auto. destruct (T2 h Hb) as (X1 & X2 & X3). auto.
  - apply (chain_iff n k ltac:(lia) Hk Rs OK); [lia|]. intros x Hx.
    assert (Hxs : (x < csize Rs (Datatypes.S deg))%nat).
    { destruct (Nat.lt_ge_cases x (csize Rs (Datatypes.S deg))) as [|Hge]; auto. exfalso. apply Hx. rewrite L6 by lia. apply Zmod_0_l. }
    split; [auto|]. destruct (Z_le_gt_dec (crad Rs (Datatypes.S deg) x) (nth g R 0)) as [|Hgt]; auto. exfalso. apply Hx.
    apply (z_iff p _ Hp1). rewrite HLift by auto. rewrite (Zsum_cong0 p); [apply cong_eq; ring|]. intros a Ha.
    destruct (Z.eq_dec (get gammas a i) 0) as [->|Hga]; [apply cong_eq; ring|]. destruct (T1 a Hga) as [_ Hb].
    destruct (P4 a Ha) as (_ & Hch & _). destruct (Z.eq_dec (colv pre a x mod p) 0) as [Hz|Hz].
    + apply (z_iff p _ Hp1) in Hz. change (get pre x a) with (colv pre a x). rewrite Hz. apply cong_eq. ring.
    + destruct (Hch x Hz) as [_ Hcr]. lia.
  - intros j.
    assert (Ej : at_entry (LEntry gens (LMat (length (G n k deg)) rows)) g j = vget (nth i rows []) j).
    { unfold at_entry. cbn [le_ref le_coord lrows]. rewrite <- Eg, find_idx_nth; auto. apply increasing_NoDup; auto. }
    rewrite Ej, (T3 j).
    assert (Eb : cong p (vbd n deg k (at_entry L g) j) (- Zsum (length (b_bars I)) (fun a => get gammas a i * get (b_coords I) j a))).
    { rewrite <- (bd_G n k Rs OK deg). unfold bd_of.
      rewrite (Zsum_cong p _ _ (fun x => Zsum (length (b_bars I)) (fun a => - (get gammas a i) * (bd_entry (l_Ds (loc n k)) (Datatypes.S deg) j x * colv pre a x)))).
      2:{ intros x Hx. rewrite HLift by auto. apply cong_eq. rewrite <- Zsum_opp, <- Zsum_scale. apply Zsum_ext. intros a _. unfold colv. ring. }
      rewrite Zsum_swap. rewrite <- Zsum_opp. apply Zsum_cong. intros a Ha. rewrite Zsum_scale.
      destruct (P4 a Ha) as (_ & _ & Hbd). specialize (Hbd j). apply cong_iff_mod in Hbd; [|lia]. unfold bd_of in Hbd.
      rewrite Hbd. apply cong_eq. unfold colv. ring. }
    rewrite Eb. rewrite (Zsum_ext _ (fun h => get B g h * _) (fun h => get betas h i * get (b_coords H) j h)).
    + apply cong_eq. ring.
    + intros h Hh. rewrite <- Eg, S5 by (auto; lia). reflexivity.
Qed.

Hypothesis HR : forall s g, In g (le_ref (nth s start (LEntry [] LNil))) -> (g < length R)%nat.

Lemma zig_image : exists gens coord, cech_diff_local S start n deg k = Ok (gens, coord) /\
  good_entry (length (G n k deg)) (LEntry gens coord) /\ (coord = LNil <-> gens = []) /\ (forall g, In g gens -> (g < length R)%nat) /\
  forall c, cech_diff S n deg start = Ok c -> forall g j, at_entry (LEntry gens coord) g j = value c k g j.
Proof.
  destruct zig_chain as (gens & coord & E & H1 & H2 & H3 & H4). exists gens, coord. split; [auto|]. split; [auto|]. split; [auto|].
  split; [intros g Hgi; destruct (H3 g Hgi) as [s Hs]; apply (HR s g Hs)|exact H4].
Qed.

Theorem zig_total : (forall c, cech_diff S n deg start = Ok c -> forall g, (g < length R)%nat -> nth g R 0 < max_r /\ local_cycle p Dist IN S n deg k (nth g R 0) (value c k g)) ->
  exists o, cech_diff_and_lift_local S R start n deg k = Ok o.
Proof.
  intros Hcyc. destruct zig_image as (gens & coord & E & Hge & Hnil & HRg & HV).
  destruct (cech_diff_ok _ _ _ _ _ _ _ _ _ HI S PO n deg start Hn ltac:(unfold m in Hd; lia) Hc Hg) as (c & Ec & _).
  specialize (Hcyc c Ec). specialize (HV c Ec).
  unfold cech_diff_and_lift_local.
  assert (Hlev : lev n <> []) by (intros X; rewrite X in Hk; simpl in Hk; lia).
  destruct (cyc_ok n deg ltac:(lia) Hlev Hd) as [Ecyc _]. rewrite Ecyc. cbn [bind].
  destruct (windows_ok n deg k Hk) as [Ep En]. cbv zeta in Ep, En. rewrite Ep. cbn [bind]. rewrite En. cbn [bind].
  destruct (hom0_of n k deg ltac:(lia) Hk ltac:(lia)) as [Eh Edim].
  set (H := hom_of S n k deg) in *. set (prev := list_sum _) in *.
  assert (Hdim : b_dim H <> 0%nat) by (rewrite Edim; intros X; apply Hne, length_zero_iff_nil; auto).
  destruct (Nat.eqb_spec prev (prev + b_dim H)) as [|_]; [lia|].
  rewrite E. cbn [bind]. destruct (Nat.eqb_spec (length gens) 0) as [H0|H0]; [eauto|].
  rewrite (take_err_pure R gens 0) by auto. cbn [bind].
  destruct coord as [|w rows]; [exfalso; apply H0; rewrite (proj1 Hnil eq_refl); reflexivity|].
  destruct Hge as [Hinc (Hw & Lrows & Frows)]. cbn [le_ref le_coord] in *. subst w.
  destruct (loc_ok _ _ _ _ _ _ _ _ _ S PO n k ltac:(lia) Hk) as [Rs OK]. fold (loc n k) in OK.
  pose proof (lo_Ds _ _ _ _ _ _ _ _ OK) as LD. fold m in LD.
  pose proof (the_local_ok _ _ _ _ _ _ _ _ _ _ PO n k ltac:(lia) Hk) as El. fold (loc n k) in El.
  rewrite <- (csize_G n k Rs OK deg) in Frows |- *.
  assert (Hrad : forall i, (i < length gens)%nat -> nth i (map (fun i0 => nth i0 R 0) gens) 0 = nth (nth i gens 0%nat) R 0).
  { intros i Hi. rewrite (nth_map (fun i0 => nth i0 R 0) gens i 0%nat) by auto. reflexivity. }
  destruct (local_lift_total rnd p max_r _ _ Rs _ Hp (lo_valid _ _ _ _ _ _ _ _ OK) (lo_ph _ _ _ _ _ _ _ _ OK) S n k deg (loc n k) ltac:(lia)
    (po_p _ _ _ _ _ _ _ _ _ _ PO) El eq_refl rows (map (fun i => nth i R 0) gens) Frows ltac:(rewrite map_length; lia)) as [gb Elift].
  { intros i Hi. rewrite Hrad by lia. set (g := nth i gens 0%nat). assert (Hin : In g gens) by (apply nth_In; lia).
    destruct (Hcyc g (HRg g Hin)) as [H1 H2]. split; [auto|]. apply (cycle_iff n k ltac:(lia) Hk Rs OK deg) in H2; [|lia].
    assert (Ev : forall j, value c k g j = vget (nth i rows []) j).
    { intros j. rewrite <- HV. unfold at_entry. cbn [le_ref le_coord lrows]. unfold g. rewrite find_idx_nth; [reflexivity|apply increasing_NoDup; auto|lia]. }
    destruct H2 as [X Y]. split.
    - intros a Ha. apply X. rewrite Ev. auto.
    - intros a. rewrite <- (Y a). f_equal. unfold bd_of. apply Zsum_ext. intros b _. rewrite Ev. reflexivity. }
  rewrite Elift. cbn [bind].
  pose proof (local_lift_sound rnd p max_r _ _ Rs _ Hp (lo_valid _ _ _ _ _ _ _ _ OK) (lo_ph _ _ _ _ _ _ _ _ OK) S n k deg (loc n k) ltac:(lia)
    (po_p _ _ _ _ _ _ _ _ _ _ PO) El eq_refl rows (map (fun i => nth i R 0) gens) Frows ltac:(rewrite map_length; lia) gb Elift) as HS.
  change (nth deg (ph_hom (l_out (loc n k))) empty_basis) with H in HS. set (I := nth deg (ph_im (l_out (loc n k))) empty_basis) in *.
  destruct gb as [[gammas betas]|].
  2:{ exfalso. destruct HS as [->|[_ X]]; [simpl in Lrows; lia|auto]. }
  destruct HS as (N1 & N2 & C1 & C2 & _).
  destruct (Nat.eqb_spec (nrows betas) (prev + b_dim H - prev)) as [Enb|X]; [|exfalso; apply X; lia]. cbn [negb].
  rewrite El. cbn [bind].
  destruct (ph_lengths rnd p max_r _ _ Rs _ Hp (lo_valid _ _ _ _ _ _ _ _ OK) (lo_ph _ _ _ _ _ _ _ _ OK)) as (_ & _ & LP).
  unfold preim0. rewrite (nth_err_nth _ (1 + deg) (Mat 0 [])) by lia. cbn [bind].
  set (pre := nth (1 + deg) (ph_preim (l_out (loc n k))) (Mat 0 [])) in *.
  destruct (C22_aux rnd p max_r _ _ Rs _ Hp (lo_valid _ _ _ _ _ _ _ _ OK) (lo_ph _ _ _ _ _ _ _ _ OK) deg ltac:(lia)) as (P1 & _).
  cbv zeta in P1. fold I in P1. change (nth (Datatypes.S deg) (ph_preim (l_out (loc n k))) (Mat 0 [])) with pre in P1.
  unfold matmul. rewrite P1, N1, Nat.eqb_refl. cbn [bind]. destruct (Nat.ltb _ _); eauto.
Qed.
End ZigLocal.
End Zig.
