(** * The extension problem of a spectral sequence with two columns *)
From Coq Require Import QArith.
From Verif Require Import Base ListX SortX Lin Gauss_model Gauss_arith Gauss_col Gauss_solve Gauss_bar Basis_model Basis_props PH_model PH_loop PH_lin PH_step PH_props Simp_model Spec_Simp Simp_lists Simp_diff Simp_props
  Spec_PH Spec_Rips Rips_bd Rips_chain Rips_props LC_model Spec_LC LC_props SS_model Spec_SS SS_inv SS_page SS_cech SS_glue SS_lift SS_zig SS_first SS_double SS_fplift
  IK_model IK_lin IK_abs IK_quot IK_mph MPH_props Spec_IK Spec_Bars Bars MPH_bars Bars_complex Spec_E2 Spec_Two Blocks SS_rows Cover_model HP_model HP_table HP_row HP_gens HP_second HP_zero HP_pages HP_perm HP_two Two_col Two_fam HP_conv.
From Coq Require Import Sorted Permutation Znumtheory.
Local Open Scope Z_scope.

Local Notation e0 := (LEntry [] LNil).

(** ** [lift_to_page] to the second page *)
Lemma get_skip n k A i j : get (Mat n (map (skipn k) (cols A))) i j = get A (k + i) j.
Proof.
  unfold get, col. cbn [cols]. destruct (Nat.lt_ge_cases j (length (cols A))) as [H|H].
  - rewrite (nth_map (skipn k) (cols A) j []) by auto. unfold vget. apply nth_skipn.
  - rewrite !nth_overflow by (rewrite ?map_length; auto). unfold vget. rewrite !nth_overflow by (cbn; lia). reflexivity.
Qed.

Lemma get_first n k A i j : (i < k)%nat -> get (Mat n (map (firstn k) (cols A))) i j = get A i j.
Proof.
  intros Hi. unfold get, col. cbn [cols]. destruct (Nat.lt_ge_cases j (length (cols A))) as [H|H].
  - rewrite (nth_map (firstn k) (cols A) j []) by auto. unfold vget. apply nth_firstn. exact Hi.
  - rewrite !nth_overflow by (rewrite ?map_length; auto). unfold vget. rewrite !nth_overflow by (cbn; lia). reflexivity.
Qed.

Lemma get_app_l A B i k : (k < ncols A)%nat -> get (mappend A B) i k = get A i k.
Proof. intros H. unfold get. rewrite col_mappend_l by auto. reflexivity. Qed.
Lemma get_app_r A B i k : get (mappend A B) i (ncols A + k) = get B i k.
Proof. unfold get. rewrite col_mappend_r by lia. do 2 f_equal. lia. Qed.

Lemma gauss_barcodes_wf A rb cb s p X : gauss_barcodes A rb cb s p = Ok X -> wf_mat X.
Proof.
  unfold gauss_barcodes. intros E. destruct (mapM _ _) as [cs|] eqn:Em; [|discriminate]. cbn [bind] in E. injection E as <-. apply mapM_Ok in Em. destruct Em as [Lc Hc].
  unfold wf_mat. cbn [cols nrows]. apply Forall_forall. intros x Hx. apply (In_nth _ _ []) in Hx. destruct Hx as (i & Hi & <-). unfold vec in *. rewrite Lc in Hi.
  specialize (Hc i 0%nat [] Hi). unfold gauss_barcodes_col in Hc. destruct (Nat.eqb _ 0); [injection Hc as <-; apply repeat_length|]. destruct (Nat.eqb s 0); [discriminate|].
  destruct (gauss_col _ p) as [[R T]|]; [|discriminate]. cbn [bind] in Hc. destruct (vany _); [discriminate|]. injection Hc as <-. rewrite map_length, seq_length. reflexivity.
Qed.

Lemma zero_many A : wf_mat A -> (forall i j, (i < nrows A)%nat -> (j < ncols A)%nat -> get A i j = 0) -> many A = false.
Proof.
  intros W H. unfold many. destruct (existsb vany (cols A)) eqn:E; [|reflexivity]. apply existsb_exists in E. destruct E as (x & Hx & Hv).
  assert (vany x = false); [|congruence]. apply vany_false. intros i. destruct (Nat.lt_ge_cases i (length x)) as [Hi|Hi]; [|unfold vget; apply nth_overflow; exact Hi].
  unfold wf_mat in W. rewrite Forall_forall in W. rewrite (W x Hx) in Hi. apply (In_nth _ _ []) in Hx. destruct Hx as (j & Hj & Ej). specialize (H i j Hi Hj). unfold get, col, vec in *. rewrite Ej in H. exact H.
Qed.

Lemma classic_alive bars k b : alive bars k b \/ ~ alive bars k b.
Proof.
  unfold alive. destruct (Nat.lt_ge_cases k (length bars)); [|right; lia].
  destruct (Z_le_gt_dec (fst (nth k bars (0, 0))) b); [|right; lia]. destruct (Z_lt_ge_dec b (snd (nth k bars (0, 0)))); [left; lia|right; lia].
Qed.

Lemma lift_one rnd P n deg pp kk H I prev Bt G bbar o gm : 2 <= pp ->
  tget (h_hom P) kk n deg = Ok H -> tget (h_im P) kk n deg = Ok (Some I) ->
  ((0 < b_dim H)%nat -> b_dim H = length (b_bars H) /\ b_prev H = Some prev /\ ncols (b_coords H) = b_dim H) -> (forall x, In x (b_bars prev) -> fst x < snd x) ->
  ((0 < b_dim I)%nat -> b_dim I = length (b_bars I) /\ ncols (b_coords I) = b_dim I) ->
  ncols Bt = length bbar ->
  lift_loop rnd P n deg pp [kk] Bt G bbar = Ok (o, gm) ->
  (b_dim H = 0%nat /\ o = None /\ gm = None) \/
  ((0 < b_dim H)%nat /\ exists X Y, o = Some X /\ gm = Some Y /\ nrows X = b_dim H /\ ncols X = length bbar /\ wf_mat X /\ (b_dim I = 0%nat -> many Y = false) /\
    forall g, (g < length bbar)%nat -> let R := fst (nth g bbar (0, 0)) in
      (forall k, 0 <= get X k g < pp) /\
      (forall k, (k < b_dim H)%nat -> get X k g <> 0 -> alive (b_bars H) k R) /\
      (forall k, (k < b_dim I)%nat -> get Y k g <> 0 -> alive (b_bars I) k R) /\
      (forall i, alive (b_bars prev) i R ->
         cong pp (get Bt i g) (Zsum (b_dim I) (fun k => get Y k g * get (b_coords I) i k) + Zsum (b_dim H) (fun k => get X k g * get (b_coords H) i k)))).
Proof.
  intros Hp EH EI HO Hprevbars HIm Nb E. cbn [lift_loop] in E. rewrite EI, EH in E. cbn [bind] in E.
  destruct (Nat.ltb_spec 0 (b_dim H)) as [HH|HH]; [|left; injection E as <- <-; repeat split; lia]. right. split; [exact HH|].
  destruct (HO HH) as (Ld & Hprev & Cc). rewrite Hprev in E. set (rb := b_bars prev) in *.
  set (AI := if Nat.ltb 0 (b_dim I) then b_coords I else Mat (nrows (b_coords H)) []) in *.
  set (bI := if Nat.ltb 0 (b_dim I) then b_bars I else []) in *.
  assert (EA : (if Nat.ltb 0 (b_dim I) then if Nat.eqb (nrows (b_coords I)) (nrows (b_coords H)) then Ok (mappend (b_coords I) (b_coords H)) else Err ValueError else Ok (b_coords H))
    = (if Nat.eqb (nrows AI) (nrows (b_coords H)) then Ok (mappend AI (b_coords H)) else Err ValueError)).
  { unfold AI. destruct (Nat.ltb_spec 0 (b_dim I)); [reflexivity|]. cbn [nrows]. rewrite Nat.eqb_refl. unfold mappend. cbn [nrows cols app]. destruct (b_coords H); reflexivity. }
  assert (CA : ncols AI = b_dim I).
  { unfold AI. destruct (Nat.ltb_spec 0 (b_dim I)) as [L|L]; [apply (HIm L)|]. unfold ncols. cbn. lia. }
  assert (LbI : length bI = b_dim I).
  { unfold bI. destruct (Nat.ltb_spec 0 (b_dim I)) as [L|L]; [symmetry; apply (HIm L)|]. cbn. lia. }
  rewrite EA in E. destruct (Nat.eqb_spec (nrows AI) (nrows (b_coords H))) as [NA|]; [|discriminate]. cbn [bind] in E.
  cbn [mappend nrows] in E.
  destruct (Nat.eqb_spec (nrows AI) (nrows Bt)) as [NB|]; [|discriminate]. cbn [bind] in E.
  destruct (mk_basis (b_flat prev) rb None no_coords false false None) as [Q|] eqn:Emk; [|discriminate]. cbn [bind] in E.
  assert (Erb : b_bars Q = rb) by (pose proof (mk_basis_bars _ _ _ _ _ _ _ _ Emk) as [X _]; rewrite X; apply nontrivial_all; exact Hprevbars).
  unfold b_sort in E. destruct (b_flat Q); [discriminate|]. rewrite Erb in E.
  assert (Eprev : match b_prev Q with Some _ => take_cols_err (b_coords Q) (sort_order rnd rb) | None => Ok (b_coords Q) end = Ok (b_coords Q)).
  { unfold mk_basis in Emk. cbn [andb] in Emk. destruct (mk_coords rb None no_coords); [|discriminate]. cbn [bind] in Emk. destruct (mk_brk _ _ _); [|discriminate]. cbn [bind] in Emk.
    injection Emk as <-. reflexivity. }
  rewrite Eprev in E. cbn [bind] in E.
  match type of E with bind (take_rows_err ?a _) _ = _ => set (A := a) in * end.
  match type of E with bind ?x _ = _ => destruct x as [A'|] eqn:EA'; [|discriminate] end. cbn [bind] in E.
  match type of E with bind ?x _ = _ => destruct x as [X|] eqn:EX; [|discriminate] end. cbn [bind] in E.
  cbn [lift_loop] in E. injection E as <- <-.
  unfold take_rows_err in EA'. destruct (forallb _ _); [|discriminate]. injection EA' as <-.
  replace ((if Nat.ltb 0 (b_dim I) then b_bars I ++ b_bars H else b_bars H) ++ bbar) with ((bI ++ b_bars H) ++ bbar) in EX
    by (unfold bI; destruct (Nat.ltb 0 (b_dim I)); reflexivity).
  assert (NcA : ncols A = (b_dim I + b_dim H + length bbar)%nat).
  { unfold A. rewrite ncols_mappend. change (ncols (mappend AI (b_coords H)) + ncols Bt = b_dim I + b_dim H + length bbar)%nat. rewrite ncols_mappend, CA, Cc, Nb. reflexivity. }
  assert (NcA' : ncols (take_rows A (sort_order rnd rb)) = ncols A) by (unfold ncols, take_rows; cbn [cols]; rewrite map_length; reflexivity).
  pose proof (fun h1 h2 => gauss_barcodes_sound _ _ _ _ _ _ Hp h1 h2 EX) as GX. rewrite NcA', NcA, !app_length, LbI, <- Ld in GX.
  destruct (GX ltac:(lia) ltac:(lia)) as (NX & CX & HX). clear GX.
  do 2 eexists. split; [reflexivity|]. split; [reflexivity|]. split; [reflexivity|]. split; [unfold ncols at 1; cbn [cols]; rewrite map_length; change (ncols X = length bbar); rewrite CX; clear; lia|].
  split.
  { pose proof (gauss_barcodes_wf _ _ _ _ _ _ EX) as WX. unfold wf_mat in *. cbn [cols nrows]. apply Forall_forall. intros x Hx. apply in_map_iff in Hx. destruct Hx as (y & <- & Hy).
    rewrite Forall_forall in WX. specialize (WX y Hy). rewrite skipn_length. unfold vec in *. rewrite WX, NX. clear; lia. }
  split.
  { intros ->. unfold many. cbn [cols]. destruct (existsb vany (map (firstn 0) (cols X))) eqn:Ee; [|reflexivity]. apply existsb_exists in Ee. destruct Ee as (x & Hx & Hv).
    apply in_map_iff in Hx. destruct Hx as (y & <- & _). discriminate Hv. }
  intros g Hg R. destruct (HX (b_dim I + b_dim H + g)%nat ltac:(lia)) as (H1 & H2 & H3).
  assert (ER : fst (nth (b_dim I + b_dim H + g) ((bI ++ b_bars H) ++ bbar) (0, 0)) = R).
  { rewrite app_nth2 by (rewrite app_length, LbI, <- Ld; lia). unfold R. do 2 f_equal. rewrite app_length, LbI, <- Ld. lia. }
  rewrite ER in H2, H3. replace (b_dim I + b_dim H + g - (b_dim I + b_dim H))%nat with g in * by lia.
  split; [|split; [|split]].
  - intros k. rewrite get_skip. apply H1.
  - intros k Hk Hne. rewrite get_skip in Hne.
    assert (D : alive ((bI ++ b_bars H) ++ bbar) (b_dim I + k) R).
    { destruct (classic_alive ((bI ++ b_bars H) ++ bbar) (b_dim I + k) R) as [X0|X0]; [exact X0|]. exfalso. apply Hne. apply H2; [lia|exact X0]. }
    destruct D as [_ D]. rewrite app_nth1 in D by (rewrite app_length, LbI, <- Ld; lia). rewrite app_nth2 in D by lia. replace (b_dim I + k - length bI)%nat with k in D by lia.
    split; [lia|exact D].
  - intros k Hk Hne. rewrite get_first in Hne by auto.
    assert (D : alive ((bI ++ b_bars H) ++ bbar) k R).
    { destruct (classic_alive ((bI ++ b_bars H) ++ bbar) k R) as [X0|X0]; [exact X0|]. exfalso. apply Hne. apply H2; [lia|exact X0]. }
    destruct D as [_ D]. rewrite !app_nth1 in D by (rewrite ?app_length; lia). unfold bI in D, LbI. destruct (Nat.ltb_spec 0 (b_dim I)) as [L|L]; [|lia].
    split; [lia|exact D].
  - intros i [Hi Ha]. pose proof (proj2 (sort_order_lt rnd rb i) Hi) as Hin. apply (In_nth _ _ 0%nat) in Hin. destruct Hin as (t & Ht & Et).
    assert (Al : alive (take (0, 0) rb (sort_order rnd rb)) t R).
    { unfold alive, take. rewrite map_length. split; [exact Ht|]. rewrite (nth_map (fun i => nth i rb (0, 0)) (sort_order rnd rb) t 0%nat) by auto. rewrite Et. exact Ha. }
    specialize (H3 t Al). rewrite take_rows_get in H3 by (try rewrite NcA; auto; lia). rewrite Et in H3.
    assert (Hr : get A i (b_dim I + b_dim H + g) = get Bt i g).
    { unfold A. change (Mat (nrows AI) (cols (mappend AI (b_coords H)) ++ cols Bt)) with (mappend (mappend AI (b_coords H)) Bt).
      replace (b_dim I + b_dim H)%nat with (ncols (mappend AI (b_coords H))) by (rewrite ncols_mappend, CA, Cc; reflexivity). rewrite get_app_r. reflexivity. }
    rewrite Hr in H3. symmetry. etransitivity; [|exact H3]. apply cong_eq. rewrite Zsum_app. f_equal.
    + apply Zsum_ext. intros k Hk. rewrite get_first by auto. f_equal. rewrite take_rows_get by (try rewrite NcA; auto; lia). rewrite Et.
      unfold A. change (Mat (nrows AI) (cols (mappend AI (b_coords H)) ++ cols Bt)) with (mappend (mappend AI (b_coords H)) Bt).
      rewrite get_app_l by (rewrite ncols_mappend; lia). rewrite get_app_l by lia. unfold AI. destruct (Nat.ltb_spec 0 (b_dim I)); [reflexivity|lia].
    + apply Zsum_ext. intros k Hk. rewrite get_skip. f_equal. rewrite take_rows_get by (try rewrite NcA; auto; lia). rewrite Et.
      unfold A. change (Mat (nrows AI) (cols (mappend AI (b_coords H)) ++ cols Bt)) with (mappend (mappend AI (b_coords H)) Bt).
      rewrite get_app_l by (rewrite ncols_mappend; lia). rewrite <- CA. rewrite get_app_r. reflexivity.
Qed.

Lemma lift_loop_snoc rnd P n deg pp k bbar o gm : forall ks Bt G, (ks <> [] \/ G <> None) -> lift_loop rnd P n deg pp (ks ++ [k]) Bt G bbar = Ok (o, gm) ->
  (exists B' G', lift_loop rnd P n deg pp ks Bt G bbar = Ok (Some B', Some G') /\ lift_loop rnd P n deg pp [k] B' (Some G') bbar = Ok (o, gm)) \/
  (lift_loop rnd P n deg pp ks Bt G bbar = Ok (None, None) /\ o = None /\ gm = None).
Proof.
  induction ks as [|j ks IH]; intros Bt G HG E.
  { destruct G as [G|]; [|destruct HG; congruence]. left. exists Bt, G. split; [reflexivity|exact E]. }
  cbn [app lift_loop] in E |- *. destruct (tget (h_im P) j n deg) as [Im|]; [|discriminate]. cbn [bind] in E |- *. destruct (tget (h_hom P) j n deg) as [Hom|]; [|discriminate]. cbn [bind] in E |- *.
  destruct (Nat.ltb 0 (b_dim Hom)); [|injection E as <- <-; right; auto].
  destruct Im as [Im|]; [|discriminate]. match type of E with bind ?x _ = _ => destruct x as [A1|]; [|discriminate] end. cbn [bind] in E |- *.
  match type of E with bind ?x _ = _ => destruct x as [A2|]; [|discriminate] end. cbn [bind] in E |- *. destruct (b_prev Hom) as [prev|]; [|discriminate].
  match type of E with bind ?x _ = _ => destruct x as [Q|]; [|discriminate] end. cbn [bind] in E |- *.
  match type of E with bind ?x _ = _ => destruct x as [[Q' order]|]; [|discriminate] end. cbn [bind] in E |- *.
  match type of E with bind ?x _ = _ => destruct x as [A3|]; [|discriminate] end. cbn [bind] in E |- *.
  match type of E with bind ?x _ = _ => destruct x as [co|]; [|discriminate] end. cbn [bind] in E |- *.
  apply IH; [right; discriminate|exact E].
Qed.

(** ** [zero_out] *)
Lemma zipw_nth' {A B C} (f : A -> B -> C) da db dc : forall u v d, (d < length u)%nat -> (d < length v)%nat -> nth d (zipw f u v) dc = f (nth d u da) (nth d v db).
Proof. induction u as [|a u IH]; intros [|b v] [|d] H1 H2; simpl in *; try lia; auto. apply IH; lia. Qed.

Lemma zero_out_ok ws eb c : good ws c -> (forall k g, In g (le_ref (nth k c e0)) -> (g < length eb)%nat) ->
  exists c', zero_out eb c = Ok c' /\ good ws c' /\ (forall k g, In g (le_ref (nth k c' e0)) -> (g < length eb)%nat) /\
    forall k g j, value c' k g j = if nth g eb false then value c k g j else 0.
Proof.
  intros Hg HR. pose proof (good_length _ _ Hg) as Lc. unfold zero_out. set (f := fun e : lentry => _).
  assert (He : forall w e, good_entry w e -> (forall g, In g (le_ref e) -> (g < length eb)%nat) -> exists e', f e = Ok e' /\ good_entry w e' /\ le_ref e' = le_ref e /\
    forall g j, at_entry e' g j = if nth g eb false then at_entry e g j else 0).
  { intros w e [G1 G2] Hr. unfold f. destruct (Nat.ltb_spec 0 (length (le_ref e))) as [L|L].
    - rewrite (mapM_pure (nth_err eb) (fun i => nth i eb false)) by (intros g Hgg; apply nth_err_nth; auto). cbn [bind].
      destruct (le_coord e) as [|w' rows] eqn:Ec; [rewrite G2 in L; cbn in L; lia|]. destruct G2 as (-> & Lr & Fr).
      assert (Lz : length (map (fun i => nth i eb false) (le_ref e)) = length rows) by (rewrite map_length; auto).
      eexists. split; [reflexivity|]. split; [|split; [reflexivity|]].
      + split; [exact G1|]. cbn [le_coord le_ref]. split; [reflexivity|]. split; [rewrite Gauss_col.zipw_length by exact Lz; apply map_length|].
        apply Forall_forall. intros r Hrr. apply (In_nth _ _ []) in Hrr. destruct Hrr as (i & Hi & <-). rewrite Gauss_col.zipw_length in Hi by exact Lz.
        rewrite (zipw_nth' _ false []) by (unfold vec in *; lia). rewrite Forall_forall in Fr.
        assert (Hin : In (nth i rows []) rows) by (apply nth_In; unfold vec in *; lia). destruct (nth i (map _ _) false); [|rewrite map_length]; apply Fr; exact Hin.
      + intros g j. unfold at_entry. cbn [le_ref le_coord lrows]. rewrite Ec. cbn [lrows]. destruct (find_idx (Nat.eqb g) (le_ref e)) as [i|] eqn:Ei; [|destruct (nth g eb false); reflexivity].
        destruct (find_idx_Some _ _ _ 0%nat Ei) as (Hi & Eg & _). apply Nat.eqb_eq in Eg. rewrite (zipw_nth' _ false []) by (rewrite ?map_length; unfold vec in *; lia).
        rewrite (nth_map (fun i => nth i eb false) (le_ref e) i 0%nat) by auto. rewrite <- Eg. destruct (nth g eb false); [reflexivity|].
        unfold vec in *. destruct (Nat.lt_ge_cases j (length (nth i rows []))) as [Hj|Hj]; [rewrite (nth_map (fun _ => 0) _ j 0) by auto; reflexivity|apply nth_overflow; rewrite map_length; auto].
    - exists e. split; [reflexivity|]. split; [split; auto|]. split; [reflexivity|]. intros g j. unfold at_entry. destruct (le_ref e); [|cbn in L; lia]. cbn. destruct (nth g eb false); reflexivity. }
  destruct (mapM_index f (fun k e' => good_entry (nth k ws 0%nat) e' /\ le_ref e' = le_ref (nth k c e0) /\ forall g j, at_entry e' g j = if nth g eb false then at_entry (nth k c e0) g j else 0) e0 e0 c) as (c' & E & Lc' & Hc').
  { intros k Hk. destruct (He (nth k ws 0%nat) (nth k c e0)) as (e' & E1 & E2 & E3 & E4); [apply good_nth; [exact Hg|lia]|intros g; apply HR|]. exists e'. auto. }
  exists c'. split; [exact E|]. split; [apply good_intro; [lia|intros k Hk; apply Hc'; lia]|]. split.
  - intros k g Hin. destruct (Nat.lt_ge_cases k (length c)) as [Hk|Hk]; [destruct (Hc' k Hk) as (_ & R & _); rewrite R in Hin; eapply HR; eauto|].
    rewrite nth_overflow in Hin by lia. destruct Hin.
  - intros k g j. unfold value. destruct (Nat.lt_ge_cases k (length c)) as [Hk|Hk]; [apply (Hc' k Hk)|].
    rewrite (nth_overflow c') by lia. rewrite (nth_overflow c) by lia. destruct (nth g eb false); reflexivity.
Qed.

Section Ext.
Variables (argsort : list Z -> list nat) (rnd : Z -> Z) (Dist : list (list Z)) (max_r max_dim p : Z)
  (IN : list (list (list nat))) (n0 : nat) (nerve : list (list simplex)).
Hypothesis HI : mv_input argsort Dist max_r max_dim p IN n0 nerve.
Variable S : ss.
Hypothesis PO : page_ok argsort rnd Dist max_r max_dim p IN n0 nerve S.
Hypothesis HN : pure_nerve n0 nerve.
Hypothesis Hlen : (1 < length nerve)%nat.
Variable np : nat.
Hypothesis Hnp : (2 <= np)%nat.
Let m := Z.to_nat max_dim.
Let Hp := mv_prime _ _ _ _ _ _ _ _ HI.
Let lev n := level n0 nerve n.
Let p_pos : 0 < p. Proof. destruct Hp. lia. Qed.
Let iff0 a : a mod p = 0 <-> cong p a 0. Proof. apply mod_cong_0. exact p_pos. Qed.
Local Notation widths := (sizes IN n0 nerve S).
Local Notation FB := (fam_bounds p Dist IN n0 nerve S).
Local Notation FZ := (fam_cycle p Dist IN n0 nerve S).
Local Notation PB := (page2_bounds p Dist IN n0 nerve S).
Local Notation rb := (row_bars n0 nerve S).
Local Notation cmb := (fam_comb n0 nerve S).
Local Notation FC := (Two_fam.FC Dist p IN n0 nerve S).
Local Notation dD := (Two_fam.dD IN n0 nerve S).
Local Notation ch e := (fam_cech IN n0 nerve S e 0).

(** The chain of a representative as a family. *)
Definition fv (c : chains) (g : nat) (x : nat * nat) : Z := value c (fst x) g (snd x).

Let FBs d n r : Spec_Bars.subspace p (FB d n r). Proof. apply (fam_bounds_sub argsort Dist max_r max_dim p IN n0 nerve HI S). Qed.
Let FZs d n r : Spec_Bars.subspace p (FZ d n r). Proof. apply (fam_cycle_sub argsort Dist max_r max_dim p IN n0 nerve HI S). Qed.

Lemma cmb_cong d n c c' : (forall h, (h < length (rb d n))%nat -> cong p (c h) (c' h)) -> forall x, cong p (cmb d n c x) (cmb d n c' x).
Proof. intros H x. unfold fam_comb. apply Zsum_cong. intros h Hh. rewrite (H h Hh). reflexivity. Qed.

Lemma cmb_lin d n N (a : nat -> Z) (c : nat -> nat -> Z) x : cmb d n (fun h => Zsum N (fun k => a k * c k h)) x = Zsum N (fun k => a k * cmb d n (c k) x).
Proof.
  unfold fam_comb. erewrite Zsum_ext; [|intros h Hh; rewrite <- Zsum_scale_r; reflexivity]. rewrite Zsum_swap. apply Zsum_ext. intros k Hk. rewrite <- Zsum_scale. apply Zsum_ext. intros h Hh. ring.
Qed.

Lemma cmb_sub d n a b x : cmb d n (fun h => a h - b h) x = cmb d n a x - cmb d n b x.
Proof. unfold fam_comb. rewrite <- Zsum_sub. apply Zsum_ext. intros; ring. Qed.

Lemma fb_pb d n r v : (d < m)%nat -> FB d n r v -> PB d n r v.
Proof.
  intros Hd Hv. split; [apply (fam_bounds_cycle _ _ _ _ _ _ _ _ _ HI S PO d Hd (proj2 HN)); exact Hv|].
  exists (fun _ => 0). split; [apply (subs_zero p Hp); [apply FZs|intros; reflexivity]|].
  apply (subs_cong p Hp _ v); [apply FBs| |exact Hv]. intros x.
  pose proof (fc_lin _ _ _ _ _ _ _ _ HI S d Hd n 0 (fun _ => 0) (fun _ _ => 0) (fun _ => 0) ltac:(intros; reflexivity) x) as X. cbn [Zsum] in X. rewrite X. apply cong_eq. ring.
Qed.

(** Generators of the first page that are dead, or not present. *)
Lemma null_bounds d n r c : (d < m)%nat -> r < max_r -> (forall h, (h < length (rb d n))%nat -> r < bdeath (rb d n) h -> cong p (c h) 0) -> FB d n r (cmb d n c).
Proof.
  intros Hd Hr H. destruct (fam_pb _ _ _ _ _ _ _ _ _ HI S PO d Hd (proj2 HN) n) as (_ & _ & HD). unfold fam_comb. apply (subs_lc_cong p Hp); [apply FBs|]. intros h Hh.
  destruct (Z_lt_ge_dec r (bdeath (rb d n) h)) as [L|L]; [left; auto|right]. apply HD; auto. lia.
Qed.

Lemma free_bounds d n r c : (d < m)%nat -> r < max_r -> (forall h, (h < length (rb d n))%nat -> r < bbirth (rb d n) h -> cong p (c h) 0) -> FB d n r (cmb d n c) ->
  forall h, (h < length (rb d n))%nat -> r < bdeath (rb d n) h -> cong p (c h) 0.
Proof.
  intros Hd Hr H0 Hb h Hh Hlt. destruct (Z_lt_ge_dec r (bbirth (rb d n) h)) as [L|L]; [auto|].
  destruct (fam_pb _ _ _ _ _ _ _ _ _ HI S PO d Hd (proj2 HN) n) as (_ & HQ & _). destruct (HQ r Hr) as (_ & _ & HQ3).
  set (c' := fun k => if Z.leb (bbirth (rb d n) k) r && Z.ltb r (bdeath (rb d n) k) then c k else 0).
  assert (X : c' h mod p = 0).
  { apply HQ3; auto.
    - intros k Hk. unfold c'. destruct (Z.leb_spec (bbirth (rb d n) k) r), (Z.ltb_spec r (bdeath (rb d n) k)); cbn [andb]; try reflexivity. lia.
    - refine (subs_cong p Hp _ _ _ (FBs d n r) _ (subs_sub p _ _ _ (FBs d n r) Hb (null_bounds d n r (fun k => c k - c' k) Hd Hr _))).
      + intros x. cbv beta. rewrite cmb_sub. apply cong_eq. unfold fam_comb. ring.
      + intros k Hk Hk2. unfold c'. destruct (Z.leb_spec (bbirth (rb d n) k) r) as [A|A], (Z.ltb_spec r (bdeath (rb d n) k)); cbn [andb]; try lia; [apply cong_eq; ring|].
        rewrite (H0 k Hk A). reflexivity. }
  unfold c' in X. destruct (Z.leb_spec (bbirth (rb d n) h) r), (Z.ltb_spec r (bdeath (rb d n) h)); cbn [andb] in X; try lia. apply iff0. exact X.
Qed.

(** [first_page_lift] on families. *)
Lemma flift n d st R : (n < length nerve)%nat -> (d < m)%nat -> good (widths n d) st ->
  (forall k g, In g (le_ref (nth k st e0)) -> (g < length R)%nat) ->
  (forall g, (g < length R)%nat -> nth g R 0 < max_r \/ forall x, cong p (fv st g x) 0) ->
  (forall g, (g < length R)%nat -> FZ d n (nth g R 0) (fv st g)) ->
  lev n <> [] ->
  exists B lifts, first_page_lift S n d st R = Ok (B, lifts) /\ nrows B = length R /\ ncols B = length (rb d n) /\ wf_mat B /\ (forall g h, 0 <= get B g h < p) /\
    good (widths n (Datatypes.S d)) lifts /\ (forall k g, In g (le_ref (nth k lifts e0)) -> (g < length R)%nat) /\
    forall g, (g < length R)%nat -> FC (Datatypes.S d) n (nth g R 0) (fv lifts g) /\
      (forall h, (h < length (rb d n))%nat -> nth g R 0 < bbirth (rb d n) h -> cong p (get B g h) 0) /\
      (forall x, cong p (fv st g x) (dD d n (fv lifts g) x + cmb d n (get B g) x)) /\
      ((forall x, cong p (fv st g x) 0) -> forall x, fv lifts g x = 0) /\
      (forall h, (h < length (rb d n))%nat -> get B g h <> 0 -> bbirth (rb d n) h <= nth g R 0 < bdeath (rb d n) h).
Proof.
  intros Hn Hd Hg HR Hlt Hcyc Hlev.
  destruct (first_page_lift_gen _ _ _ _ _ _ _ _ _ HI S PO n d st R) as (B & lifts & E & NB & CB & WB & RB & GL & RL & HB); auto.
  { intros g Hg'. destruct (Hlt g Hg') as [X|X]; [left; exact X|right]. intros k j. apply (X (k, j)). }
  { intros k g Hk Hg'. exact (proj2 (Hcyc g Hg') k Hk). }
  assert (Cl : list_sum (dims n0 nerve S n d) = length (rb d n)).
  { pose proof (before_start _ _ _ _ _ _ _ _ _ HI S PO n d (length (lev n)) ltac:(lia) Hd (le_n _)) as X.
    rewrite firstn_all2 in X by (rewrite dims_length; apply le_n). rewrite X. symmetry. apply row_bars_length. }
  exists B, lifts. rewrite Cl in CB. split; [exact E|]. do 6 (split; [assumption|]). intros g Hg'.
  assert (Vout : forall c e, good (widths n e) c -> forall k j, (length (lev n) <= k)%nat -> value c k g j = 0).
  { intros c e Gc k j Hk. unfold value. rewrite nth_overflow; [reflexivity|]. rewrite (good_length _ _ Gc). unfold sizes. rewrite map_length, seq_length. exact Hk. }
  assert (Bf : forall k, (k < length (lev n))%nat -> before n0 nerve S n d k = start (famlen S d n) k).
  { intros k Hk. unfold before. apply (before_start _ _ _ _ _ _ _ _ _ HI S PO); [lia|exact Hd|]. unfold lev in Hk. lia. }
  split; [|split; [|split; [|split]]].
  - split; [intros k j Hk; unfold fv; cbn [fst snd]; rewrite (Vout _ _ GL k j Hk); apply Zmod_0_l|]. intros k Hk. apply (HB k g Hk Hg').
  - intros h Hh Hlt'. destruct (row_pos n0 nerve S d n h Hh) as (k & a & Hk & Hka & ->). destruct (HB k g Hk Hg') as (_ & H2 & _). fold (famlen S d n k) in H2.
    unfold bbirth in Hlt'. rewrite row_bars_nth in Hlt' by auto. rewrite Bf in H2 by exact Hk. specialize (H2 a Hka).
    destruct (Z.eq_dec (get B g (start (famlen S d n) k + a)) 0) as [->|Hne]; [reflexivity|]. specialize (H2 Hne). unfold bbirth in H2. lia.
  - intros [k j]. unfold fv. cbn [fst snd]. destruct (Nat.lt_ge_cases k (length (lev n))) as [Hk|Hk].
    + destruct (HB k g Hk Hg') as (_ & _ & H3 & _). rewrite (H3 j). rewrite dD_in by exact Hk.
      pose proof (comb_part _ _ _ _ _ _ _ _ HI S d Hd n k (get B g) j Hk) as X. unfold part in X. unfold fam_comb. rewrite X. rewrite Bf by exact Hk. reflexivity.
    + rewrite (Vout _ _ Hg k j Hk), dD_out by exact Hk. apply cong_eq. unfold fam_comb. symmetry. rewrite Z.add_0_l. apply Zsum_0. intros h Hh. rewrite (gen_out _ _ _ _ _ _ _ _ HI S d Hd) by exact Hk. ring.
  - intros H [k j]. unfold fv. cbn [fst snd]. destruct (Nat.lt_ge_cases k (length (lev n))) as [Hk|Hk]; [|apply (Vout _ _ GL); exact Hk].
    apply (HB k g Hk Hg'). intros j'. apply (H (k, j')).
  - intros h Hh Hne. destruct (row_pos n0 nerve S d n h Hh) as (k & a & Hk & Hka & ->). destruct (HB k g Hk Hg') as (_ & H2 & _ & H4). fold (famlen S d n k) in H2, H4.
    rewrite Bf in H2, H4 by exact Hk. unfold bbirth, bdeath. rewrite row_bars_nth by auto. specialize (H2 a Hka Hne). unfold bbirth, bdeath in H2.
    destruct (Hlt g Hg') as [X|X]; [lia|]. exfalso. apply Hne. apply H4; [intros j; apply (X (k, j))|exact Hka].
Qed.

Lemma FB_dD d n r w : FC (Datatypes.S d) n r w -> FB d n r (dD d n w).
Proof. intros H. apply (fam_bounds_iff _ _ _ _ _ _ _ _ HI). exists w. split; [exact H|]. intros x. reflexivity. Qed.

(** The coefficients found by [lift_to_page] on the second page. *)
Lemma lift_rel d n H I reps r (v : nat * nat -> Z) w (B X Y : nat -> Z) : (d < m)%nat -> r < max_r -> gens Dist max_r p IN n0 nerve S d n H I reps ->
  FC (Datatypes.S d) n r w -> (forall x, cong p (v x) (dD d n w x + cmb d n B x)) ->
  (forall h, (h < length (rb d n))%nat -> r < bbirth (rb d n) h -> cong p (B h) 0) ->
  (forall k, (k < b_dim H)%nat -> X k <> 0 -> alive (b_bars H) k r) ->
  (forall k, (k < b_dim I)%nat -> Y k <> 0 -> alive (b_bars I) k r) ->
  (forall i, alive (rb d n) i r -> cong p (B i) (Zsum (b_dim I) (fun k => Y k * get (b_coords I) i k) + Zsum (b_dim H) (fun k => X k * get (b_coords H) i k))) ->
  FB d n r (fun x => v x - cmb d n (fun i => Zsum (b_dim I) (fun k => Y k * get (b_coords I) i k)) x - Zsum (b_dim H) (fun k => X k * cmb d n (Spec_IK.column (b_coords H) k) x)).
Proof.
  intros Hd Hr GE Hw Hv HB HX HY HA.
  assert (N0 : FB d n r (cmb d n (fun i => B i - (Zsum (b_dim I) (fun k => Y k * get (b_coords I) i k) + Zsum (b_dim H) (fun k => X k * get (b_coords H) i k))))).
  { apply null_bounds; auto. intros h Hh Hlt. destruct (Z_lt_ge_dec r (bbirth (rb d n) h)) as [L|L].
    - assert (E1 : cong p (Zsum (b_dim I) (fun k => Y k * get (b_coords I) h k)) 0).
      { apply Zsum_cong0. intros k Hk. destruct (Z.eq_dec (Y k) 0) as [->|Hne]; [apply cong_eq; ring|]. destruct (HY k Hk Hne) as [_ [A _]].
        destruct (ge_im _ _ _ _ _ _ _ _ _ _ _ _ GE ltac:(lia)) as (_ & _ & _ & _ & Su & _). specialize (Su h k Hh Hk). unfold bbirth in L.
        destruct (Z.eq_dec (get (b_coords I) h k mod p) 0) as [Z0|Z0]; [apply iff0 in Z0; rewrite Z0; apply cong_eq; ring|]. specialize (Su Z0). lia. }
      assert (E2 : cong p (Zsum (b_dim H) (fun k => X k * get (b_coords H) h k)) 0).
      { apply Zsum_cong0. intros k Hk. destruct (Z.eq_dec (X k) 0) as [->|Hne]; [apply cong_eq; ring|]. destruct (HX k Hk Hne) as [_ [A _]].
        pose proof (ge_sup _ _ _ _ _ _ _ _ _ _ _ _ GE k h Hk Hh) as Su. unfold bbirth in L.
        destruct (Z.eq_dec (get (b_coords H) h k mod p) 0) as [Z0|Z0]; [apply iff0 in Z0; rewrite Z0; apply cong_eq; ring|]. specialize (Su Z0). lia. }
      rewrite (HB h Hh L), E1, E2. reflexivity.
    - rewrite (HA h); [apply cong_eq; ring|]. split; [exact Hh|]. unfold bbirth, bdeath in *. lia. }
  refine (subs_cong p Hp _ _ _ (FBs d n r) _ (sub_add p _ _ _ (FBs d n r) (FB_dD d n r w Hw) N0)).
  intros x. rewrite (Hv x). apply cong_eq. rewrite cmb_sub.
  assert (E : cmb d n (fun i => Zsum (b_dim I) (fun k => Y k * get (b_coords I) i k) + Zsum (b_dim H) (fun k => X k * get (b_coords H) i k)) x =
    cmb d n (fun i => Zsum (b_dim I) (fun k => Y k * get (b_coords I) i k)) x + Zsum (b_dim H) (fun k => X k * cmb d n (Spec_IK.column (b_coords H) k) x)).
  { rewrite <- cmb_lin. unfold fam_comb. rewrite <- Zsum_add. apply Zsum_ext. intros i Hi. unfold Spec_IK.column. ring. }
  rewrite E. ring.
Qed.

Lemma lift_rel2 d n H I reps r (v : nat * nat -> Z) w (B X Y : nat -> Z) : (d < m)%nat -> r < max_r -> gens Dist max_r p IN n0 nerve S d n H I reps ->
  FC (Datatypes.S d) n r w -> (forall x, cong p (v x) (dD d n w x + cmb d n B x)) ->
  (forall h, (h < length (rb d n))%nat -> r < bbirth (rb d n) h -> cong p (B h) 0) ->
  (forall k, (k < b_dim H)%nat -> X k <> 0 -> alive (b_bars H) k r) ->
  (forall k, (k < b_dim I)%nat -> Y k <> 0 -> alive (b_bars I) k r) ->
  (forall i, alive (rb d n) i r -> cong p (B i) (Zsum (b_dim I) (fun k => Y k * get (b_coords I) i k) + Zsum (b_dim H) (fun k => X k * get (b_coords H) i k))) ->
  PB d n r (fun x => v x - Zsum (b_dim H) (fun k => X k * cmb d n (Spec_IK.column (b_coords H) k) x)).
Proof.
  intros Hd Hr GE Hw Hv HB HX HY HA. pose proof (lift_rel d n H I reps r v w B X Y Hd Hr GE Hw Hv HB HX HY HA) as F. apply fb_pb in F; [|exact Hd].
  pose proof (page2_bounds_sub _ _ _ _ _ _ _ _ HI S d n r Hd) as Su.
  assert (G : PB d n r (cmb d n (fun i => Zsum (b_dim I) (fun k => Y k * get (b_coords I) i k)))).
  { destruct (Nat.eq_dec (b_dim I) 0) as [Z0|Z0].
    - apply (subs_zero p Hp); [exact Su|]. intros x. apply cong_eq. unfold fam_comb. apply Zsum_0. intros i Hi. rewrite Z0. cbn [Zsum]. ring.
    - destruct (ge_im _ _ _ _ _ _ _ _ _ _ _ _ GE ltac:(lia)) as (_ & Cn & _ & _ & _ & G).
      apply (sub_ext p _ (cmb d n (mapply (b_coords I) (fun k => if Nat.ltb k (b_dim I) then Y k else 0)))); [exact Su| |].
      + intros x. unfold fam_comb. apply Zsum_ext. intros i Hi. f_equal. unfold mapply. rewrite Cn. apply Zsum_ext. intros k Hk. apply Nat.ltb_lt in Hk. rewrite Hk. ring.
      + apply G; [exact Hr|]. intros k Hk. destruct (Nat.ltb_spec k (b_dim I)) as [L|L]; [|lia]. split; [exact L|]. apply (HY k L Hk). }
  refine (sub_ext p _ _ _ Su _ (sub_add p _ _ _ Su F G)). intros x. ring.
Qed.

Lemma fv_out c n e g k j : good (widths n e) c -> (length (lev n) <= k)%nat -> fv c g (k, j) = 0.
Proof.
  intros Gc Hk. unfold fv, value. cbn [fst snd]. rewrite nth_overflow; [reflexivity|]. rewrite (good_length _ _ Gc). unfold sizes. rewrite map_length, seq_length. exact Hk.
Qed.

(** The representatives of the second column.  There is no lift over elements of the cover without classes. *)
Lemma reps_one d H I reps : (d < m)%nat -> (0 < b_dim H)%nat -> gens Dist max_r p IN n0 nerve S d 1 H I reps ->
  exists rep lift, reps = [rep; lift] /\ good (widths 1 d) rep /\ good (widths 0 (Datatypes.S d)) lift /\
    (forall k g, In g (le_ref (nth k rep e0)) -> (g < b_dim H)%nat) /\ (forall k g, In g (le_ref (nth k lift e0)) -> (g < b_dim H)%nat) /\
    forall g, (g < b_dim H)%nat -> (forall x, fv rep g x = cmb d 1 (Spec_IK.column (b_coords H) g) x) /\
      FC (Datatypes.S d) 0 (bbirth (b_bars H) g) (fv lift g) /\
      forall k, (k < length (lev 0))%nat ->
        (b_bars (hom_of S 0 k d) = [] -> forall j, fv lift g (k, j) = 0) /\
        (b_bars (hom_of S 0 k d) <> [] -> forall j, cong p (dD d 0 (fv lift g) (k, j)) (-1 * ch d (cmb d 1 (Spec_IK.column (b_coords H) g)) (k, j))).
Proof.
  intros Hd Hpos GE. destruct (ge_reps _ _ _ _ _ _ _ _ _ _ _ _ GE Hpos) as (rep & rest & -> & Gr & Rr & Vr & lift & -> & Gl & Rl & Hl).
  exists rep, lift. split; [reflexivity|]. do 4 (split; [assumption|]). intros g Hg.
  assert (E1 : forall x, fv rep g x = cmb d 1 (Spec_IK.column (b_coords H) g) x).
  { intros [k j]. destruct (Nat.lt_ge_cases k (length (lev 1))) as [Hk|Hk]; [unfold fv; cbn [fst snd]; apply Vr; auto|].
    rewrite (fv_out rep 1 d) by auto. symmetry. unfold fam_comb. apply (comb_out _ _ _ _ _ _ _ _ HI S d Hd). exact Hk. }
  split; [exact E1|]. split.
  - split; [intros k j Hk; rewrite (fv_out lift 0 (Datatypes.S d)) by auto; apply Zmod_0_l|]. intros k Hk. apply (Hl k g Hk Hg).
  - intros k Hk. destruct (Hl k g Hk Hg) as (_ & H2 & H3). split; intros Eb j.
    + unfold fv, value. cbn [fst snd]. rewrite (H3 Eb). reflexivity.
    + rewrite dD_in by exact Hk. pose proof (fci IN n0 nerve S d 0 (cmb d 1 (Spec_IK.column (b_coords H) g)) k Hk j) as Ec. unfold part at 1 in Ec. rewrite Ec.
      specialize (H2 Eb j).
      assert (E2 : cong p (cech_image n0 nerve IN S 0 d k (part (cmb d 1 (Spec_IK.column (b_coords H) g))) j) (cech_image n0 nerve IN S 0 d k (fun s => value rep s g) j)).
      { apply (ci_ext p IN n0 nerve S 0 d k). intros s i Hs. apply cong_eq. symmetry. apply (E1 (s, i)). }
      rewrite E2. change (part (fv lift g) k) with (value lift k g).
      transitivity (cech_image n0 nerve IN S 0 d k (fun s => value rep s g) j + local_bd IN S 0 d k (value lift k g) j - cech_image n0 nerve IN S 0 d k (fun s => value rep s g) j); [apply cong_eq; ring|].
      rewrite H2. apply cong_eq. ring.
Qed.

(** A cycle over an element of the cover without classes is a boundary. *)
Lemma no_class n d k r v : (n < length nerve)%nat -> (k < length (lev n))%nat -> (d < m)%nat -> r < max_r -> b_bars (hom_of S n k d) = [] ->
  local_cycle p Dist IN S n d k r v -> local_bounds p Dist IN S n d k r v.
Proof.
  intros Hn Hk Hd Hr0 Eb Hv. destruct (loc_pb _ _ _ _ _ _ _ _ _ HI S PO n k d Hn Hk Hd) as (_ & HQ & _). destruct (HQ r Hr0) as (_ & H2 & _).
  destruct (H2 v Hv) as (c & _ & Hb). refine (sub_ext p _ _ _ (local_bounds_sub argsort Dist max_r max_dim p IN n0 nerve HI S n d k r) _ Hb). intros j. rewrite Eb. cbn [length Zsum]. ring.
Qed.

(** The lift can be completed over the elements of the cover without classes. *)
Lemma full_lift d r v w : (d < m)%nat -> r < max_r -> FZ d 1 r v -> FC (Datatypes.S d) 0 r w ->
  (forall k, (k < length (lev 0))%nat -> (b_bars (hom_of S 0 k d) = [] -> forall j, w (k, j) = 0) /\
     (b_bars (hom_of S 0 k d) <> [] -> forall j, cong p (dD d 0 w (k, j)) (-1 * ch d v (k, j)))) ->
  exists u, FC (Datatypes.S d) 0 r u /\ (forall x, cong p (dD d 0 u x) (-1 * ch d v x)) /\
    forall k, (k < length (lev 0))%nat -> (forall j, u (k, j) = w (k, j)) \/ (b_bars (hom_of S 0 k d) = [] /\ ~ forall j, cong p (ch d v (k, j)) 0).
Proof.
  intros Hd Hr0 Hv [Hw0 Hw] Hrel.
  assert (Hc : FZ d 0 r (ch d v)) by (apply (fc_cycle _ _ _ _ _ _ _ _ _ HI S PO d Hd (proj2 HN)); exact Hv).
  assert (Hch : forall k, (k < length (lev 0))%nat -> exists y : nat -> Z, local_chain p Dist IN S 0 (Datatypes.S d) k r y /\
    (forall j, cong p (local_bd IN S 0 d k y j) (-1 * ch d v (k, j))) /\
    ((forall j, y j = w (k, j)) \/ (b_bars (hom_of S 0 k d) = [] /\ ~ forall j, cong p (ch d v (k, j)) 0))).
  { intros k Hk. destruct (Hrel k Hk) as [R0 R1]. destruct (b_bars (hom_of S 0 k d)) as [|b0 bs] eqn:Eb.
    - pose proof (proj2 Hc k Hk) as Hck.
      assert (Dec : (forall j, cong p (ch d v (k, j)) 0) \/ ~ forall j, cong p (ch d v (k, j)) 0).
      { destruct (Forall_dec (fun j => ch d v (k, j) mod p = 0) (fun j => Z.eq_dec _ _) (seq 0 (length (simplices IN S 0 k d)))) as [F|F].
        - left. intros j. apply iff0. destruct (Z.eq_dec (ch d v (k, j) mod p) 0) as [|Hne]; [assumption|]. rewrite Forall_forall in F. apply F. apply in_seq. split; [lia|]. destruct (proj1 Hck j Hne) as [X _]. exact X.
        - right. intros X. apply F. apply Forall_forall. intros j _. apply iff0. apply X. }
      destruct Dec as [D|D].
      + exists (part w k). split; [apply Hw; exact Hk|]. split; [|left; reflexivity]. intros j. rewrite (D j). apply cong_eq. unfold local_bd. rewrite Zsum_0; [ring|]. intros i Hi. unfold part. rewrite (R0 eq_refl). ring.
      + destruct (no_class 0 d k r (part (ch d v) k) ltac:(lia) Hk Hd Hr0 Eb Hck) as (y & Y1 & Y2). exists (fun j => -1 * y j). split; [|split; [|right; auto]].
        * intros j Hj. apply Y1. intros X. apply Hj. apply iff0. apply iff0 in X. rewrite X. reflexivity.
        * intros j. pose proof (local_bd_lin p IN S 0 d k 1 (fun _ => -1) (fun _ => y) (fun j => -1 * y j) ltac:(intros; apply cong_eq; cbn [Zsum]; ring) j) as X.
          rewrite X. cbn [Zsum]. rewrite Z.add_0_l. apply cong_mul; [reflexivity|]. apply (cong_mod_iff p _ _ p_pos). apply Y2.
    - exists (part w k). split; [apply Hw; exact Hk|]. split; [|left; reflexivity]. intros j. rewrite <- (dD_in IN n0 nerve S d 0 w k Hk j). apply R1. discriminate. }
  destruct (pick_fun (fun _ : nat => 0) (length (lev 0)) _ Hch) as [Y HY].
  exists (fun x => if Nat.ltb (fst x) (length (lev 0)) then Y (fst x) (snd x) else 0). split; [|split].
  - split.
    + intros k j Hk. cbn [fst]. destruct (Nat.ltb_spec k (length (lev 0))) as [X|X]; [unfold lev in X; lia|apply Zmod_0_l].
    + intros k Hk. apply (sub_ext p _ (Y k)); [apply (local_chain_sub argsort Dist max_r max_dim p IN n0 nerve HI)| |apply (HY k Hk)]. intros j. unfold part. cbn [fst snd]. unfold lev. apply Nat.ltb_lt in Hk. rewrite Hk. reflexivity.
  - intros [k j]. destruct (Nat.lt_ge_cases k (length (lev 0))) as [Hk|Hk].
    + rewrite dD_in by exact Hk. destruct (HY k Hk) as (_ & Y2 & _). rewrite <- (Y2 j). apply cong_eq. unfold local_bd. apply Zsum_ext. intros i Hi. f_equal. unfold part. cbn [fst snd]. apply Nat.ltb_lt in Hk. rewrite Hk. reflexivity.
    + rewrite dD_out by exact Hk. rewrite fco by exact Hk. apply cong_eq. ring.
  - intros k Hk. destruct (HY k Hk) as (_ & _ & Y3). cbn [fst snd]. pose proof Hk as Hk2. apply Nat.ltb_lt in Hk2. rewrite Hk2. exact Y3.
Qed.

Lemma cech_refs n deg st c N : (Datatypes.S n < length nerve)%nat -> (deg <= m)%nat -> has_cofaces n0 nerve n -> good (widths (Datatypes.S n) deg) st ->
  (forall k g, In g (le_ref (nth k st e0)) -> (g < N)%nat) -> cech_diff S n deg st = Ok c ->
  good (widths n deg) c /\ forall k g, In g (le_ref (nth k c e0)) -> (g < N)%nat.
Proof.
  intros Hn Hd Hc Hg HR E. unfold cech_diff in E. rewrite (spx_ok _ _ _ _ _ _ _ _ _ _ PO n) in E by lia. cbn [bind] in E.
  destruct (fold_add_entry rnd Dist max_r max_dim p IN n0 nerve S (cech_diff_local S st n deg) (widths n deg) (fun k ref coord => forall g, In g ref -> (g < N)%nat)) as (c' & E' & Hgc & HP).
  { intros k Hk. rewrite widths_length in Hk. rewrite widths_nth by auto.
    destruct (cech_diff_local_ok _ _ _ _ _ _ _ _ _ HI S PO n deg k st Hn Hk Hd Hg) as (ref & coord & E1 & H1 & H1' & H2 & H3); [apply (cofaces_nonzero _ _ _ _ _ _ _ _ _ HI S PO); auto; lia|].
    exists ref, coord. repeat (split; [assumption|]). intros g Hgin. apply H1' in Hgin. destruct Hgin as (s & _ & _ & X). eapply HR; eauto. }
  rewrite widths_length in *. unfold lev in *. rewrite E in E'. injection E' as <-. split; [exact Hgc|]. intros k g Hin.
  destruct (Nat.lt_ge_cases k (length (level n0 nerve n))) as [Hk|Hk]; [eapply HP; eauto|]. rewrite nth_overflow in Hin; [destruct Hin|].
  rewrite (good_length _ _ Hgc). unfold sizes. rewrite map_length, seq_length. exact Hk.
Qed.

Hypothesis Hr : forall d, (d < m)%nat -> forall x y, local_end n0 nerve S d x -> local_end n0 nerve S d y -> rnd x <= rnd y -> x <= y.

(** [lift_to_page] finds coefficients on generators [V], modulo the image [I] of the first page. *)
Definition lifts (P : pages) (n d tp : nat) (V I : basis) : Prop :=
  forall B R o gm, nrows B = length R -> ncols B = length (rb d n) -> wf_mat B -> lift_to_page rnd S P n d tp B (map (fun t => (t, max_r)) R) = Ok (o, gm) ->
  (b_dim V = 0%nat /\ o = None /\ gm = None) \/
  ((0 < b_dim V)%nat /\ exists X G Y, o = Some X /\ gm = Some G /\ nrows X = b_dim V /\ ncols X = length R /\ wf_mat X /\ (b_dim I = 0%nat -> many G = false) /\
    forall g, (g < length R)%nat ->
      (forall k, 0 <= get X k g < p) /\
      (forall k, (k < b_dim V)%nat -> get X k g <> 0 -> alive (b_bars V) k (nth g R 0)) /\
      (forall k, (k < b_dim I)%nat -> get Y k g <> 0 -> alive (b_bars I) k (nth g R 0)) /\
      (forall i, alive (rb d n) i (nth g R 0) ->
         cong p (get B g i) (Zsum (b_dim I) (fun k => get Y k g * get (b_coords I) i k) + Zsum (b_dim V) (fun k => get X k g * get (b_coords V) i k)))).

(** The tables of a page, with its generators written on the first page. *)
Definition plev (P : pages) (n d k : nat) (V I : basis) : Prop :=
  exists H J reps, tget (h_hom P) k n d = Ok H /\ tget (h_im P) k n d = Ok (Some J) /\ tget (h_dim P) (Datatypes.S k) n d = Ok (b_dim H) /\ tget (h_reps P) k n d = Ok reps /\
    b_bars H = b_bars V /\ b_dim H = b_dim V /\ gens Dist max_r p IN n0 nerve S d n V I reps /\ lifts P n d (Datatypes.S k) V I.

Let ER (R : list Z) : forall g, (g < length R)%nat -> fst (nth g (map (fun t => (t, max_r)) R) (0, 0)) = nth g R 0.
Proof. intros g Hg. rewrite (nth_map (fun t => (t, max_r)) R g 0) by auto. reflexivity. Qed.

Lemma plev_first P n d H I reps : (d < m)%nat -> tget (h_hom P) 1 n d = Ok H -> tget (h_im P) 1 n d = Ok (Some I) -> tget (h_dim P) 2 n d = Ok (b_dim H) -> tget (h_reps P) 1 n d = Ok reps ->
  gens Dist max_r p IN n0 nerve S d n H I reps -> plev P n d 1 H I.
Proof.
  intros Hd EH EI ED ERp GE. exists H, I, reps. do 4 (split; [assumption|]). split; [reflexivity|]. split; [reflexivity|]. split; [exact GE|].
  intros B R o gm NB CB WB E. pose proof (po_p _ _ _ _ _ _ _ _ _ _ PO) as Ep. unfold lift_to_page in E. change (seq 1 (2 - 1)) with [1%nat] in E.
  destruct (mtr_dims B) as [_ D2]. change (ncols (mtr B) = nrows B) in D2.
  destruct (lift_one rnd P n d (s_p S) 1 H I (row_base n0 nerve S d n) (mtr B) None (map (fun t => (t, max_r)) R) o gm) as [X|(Hpos & X & Y & E1 & E2 & E3 & E4 & E5 & E6 & E7)]; auto.
  - rewrite Ep. apply prime_ge_2. exact Hp.
  - intros Hpos. destruct (ge_over _ _ _ _ _ _ _ _ _ _ _ _ GE Hpos) as ((_ & X1 & _) & X2 & _ & _ & _ & X3 & _). auto.
  - intros x Hx. cbn [row_base b_bars] in Hx. destruct (fam_pb _ _ _ _ _ _ _ _ _ HI S PO d Hd (proj2 HN) n) as (X & _). specialize (X x Hx). lia.
  - intros HI0. destruct (ge_im _ _ _ _ _ _ _ _ _ _ _ _ GE HI0) as (X & Y & _). split; [exact X|exact Y].
  - rewrite map_length, D2. exact NB.
  - right. split; [exact Hpos|]. rewrite map_length in E4, E7. rewrite Ep in E7. exists X, Y, Y. do 6 (split; [assumption|]). intros g Hg. rewrite <- (ER R g Hg). destruct (E7 g Hg) as (A1 & A2 & A3 & A4).
    do 3 (split; [assumption|]). intros i Hi. specialize (A4 i Hi). rewrite get_mtr in A4; [exact A4|rewrite CB; apply Hi|rewrite NB; exact Hg].
Qed.

Lemma plev_step P n d k V I : (d < m)%nat -> (2 <= k)%nat -> plev P n d (k - 1) V I -> stp rnd P k n d -> exists V', plev P n d k V' I /\ b_dim V' = b_dim V.
Proof.
  intros Hd Hk (H & J & reps & EH & EJ & ED & ERp & EB & EDim & GE & LI) (H2 & H' & I' & R' & F1 & F2 & F3 & F4 & F5 & F6 & F7 & F8).
  rewrite EH in F1. injection F1 as <-. pose proof (ge_dim _ _ _ _ _ _ _ _ _ _ _ _ GE) as Ld. pose proof (po_p _ _ _ _ _ _ _ _ _ _ PO) as Ep.
  assert (Sq : seq 1 (Datatypes.S k - 1) = seq 1 (k - 1) ++ [k]) by (replace (Datatypes.S k - 1)%nat with (Datatypes.S (k - 1)) by lia; rewrite seq_S; do 2 f_equal; lia).
  destruct (Nat.eq_dec (b_dim H) 0) as [Z0|Z0].
  - destruct (F7 Z0) as [-> ->]. exists V. split; [|reflexivity]. exists H, I', []. do 4 (split; [assumption|]). split; [exact EB|]. split; [exact EDim|]. split.
    + pose proof (ge_none _ _ _ _ _ _ _ _ _ _ _ _ GE ltac:(lia)) as ->. exact GE.
    + intros B R o gm NB CB WB E. left. split; [lia|]. unfold lift_to_page in E. rewrite Sq in E. apply lift_loop_snoc in E; [|left; destruct k as [|[|k]]; [lia|lia|discriminate]].
      destruct E as [(B' & G' & E1 & _)|(E1 & -> & ->)]; [|auto]. exfalso.
      destruct (LI B R (Some B') (Some G') NB CB WB) as [(_ & X & _)|(X & _)]; [unfold lift_to_page; replace (Datatypes.S (k - 1) - 1)%nat with (k - 1)%nat by lia; exact E1|discriminate|lia].
  - assert (Hpos : (0 < b_dim H)%nat) by lia. destruct (F8 Hpos) as [EV (reps2 & E2 & EM)]. rewrite ERp in E2. injection E2 as <-.
    set (N := b_dim V) in *. set (o := sort_order rnd (b_bars H)) in *.
    assert (HP : Permutation (seq 0 N) o) by (rewrite Ld, <- EB; apply sort_order_perm).
    assert (Lo : length o = N) by (rewrite <- (Permutation_length HP); apply seq_length). destruct (perm_inverse N o HP) as (q & Q1 & Q2).
    assert (Eco : b_coords H' = take_cols (mident N) o) by (rewrite EV; unfold vsort; cbn [b_coords]; rewrite EDim; reflexivity).
    assert (GE' : gens Dist max_r p IN n0 nerve S d n (vb V o) I R').
    { apply (gens_perm argsort Dist max_r max_dim p IN n0 nerve HI S d n V I reps o R' Hd GE); [fold N; lia|exact HP|]. fold N. rewrite <- Eco. exact EM. }
    assert (EB' : b_bars H' = take (0, 0) (b_bars V) o) by (rewrite EV; unfold vsort; cbn [b_bars]; rewrite <- EB; reflexivity).
    assert (ED' : b_dim H' = N) by (rewrite EV; exact EDim).
    assert (Nt : forall t, (t < N)%nat -> nth t (take (0, 0) (b_bars V) o) (0, 0) = nth (nth t o 0%nat) (b_bars V) (0, 0)).
    { intros t Ht. unfold take. rewrite (nth_map (fun i => nth i (b_bars V) (0, 0)) o t 0%nat) by lia. reflexivity. }
    assert (Lt : length (take (0, 0) (b_bars V) o) = N) by (unfold take; rewrite map_length; exact Lo).
    exists (vb V o). split; [|reflexivity]. exists H', I', R'. do 4 (split; [assumption|]). split; [exact EB'|]. split; [exact ED'|]. split; [exact GE'|].
    intros B R oo gm NB CB WB E. unfold lift_to_page in E. rewrite Sq in E. apply lift_loop_snoc in E; [|left; destruct k as [|[|k]]; [lia|lia|discriminate]].
    destruct E as [(B' & G' & E1 & E)|(E1 & -> & ->)].
    2:{ exfalso. destruct (LI B R None None NB CB WB) as [(X & _)|(_ & X & G & Y & X2 & _)]; [unfold lift_to_page; replace (Datatypes.S (k - 1) - 1)%nat with (k - 1)%nat by lia; exact E1|fold N in X; lia|discriminate]. }
    destruct (LI B R (Some B') (Some G') NB CB WB) as [(_ & X & _)|(_ & X & G & Y & X1 & X2 & X3 & X4 & X5 & X6 & X7)]; [unfold lift_to_page; replace (Datatypes.S (k - 1) - 1)%nat with (k - 1)%nat by lia; exact E1|discriminate|].
    injection X1 as ->. injection X2 as ->. fold N in X3, X7.
    destruct (lift_one rnd P n d (s_p S) k H' I' H X (Some G) (map (fun t => (t, max_r)) R) oo gm) as [(W & _)|(_ & X' & Y' & W1 & W2 & W3 & W4 & W5 & W6 & W7)]; auto.
    { rewrite Ep. apply prime_ge_2. exact Hp. }
    { intros _. rewrite ED'. split; [rewrite EB', Lt; reflexivity|]. split; [rewrite EV; reflexivity|]. rewrite Eco. unfold ncols, take_cols. cbn [cols]. rewrite map_length. exact Lo. }
    { rewrite EB. intros x Hx. pose proof (proj1 (ge_wb _ _ _ _ _ _ _ _ _ _ _ _ GE) x Hx). lia. }
    { lia. }
    { rewrite map_length. exact X4. }
    { rewrite ED' in W. lia. }
    rewrite map_length in W4, W7. rewrite ED' in W3, W7. rewrite Ep in W7.
    right. cbn [vb b_dim b_bars b_coords]. fold N. split; [lia|]. exists X', Y', Y. split; [exact W1|]. split; [exact W2|]. split; [exact W3|]. split; [exact W4|]. split; [exact W5|]. split; [intros _; apply W6; exact F4|].
    intros g Hg. destruct (W7 g Hg) as (A1 & A2 & _ & A4). rewrite (ER R g Hg) in A2, A4. rewrite EB' in A2. rewrite EB in A4. destruct (X7 g Hg) as (B1 & B2 & B3 & B4).
    split; [exact A1|]. split; [exact A2|]. split; [exact B3|].
    assert (Key : forall t, (t < N)%nat -> get X' t g = get X (nth t o 0%nat) g).
    { intros t Ht. destruct (Q1 t Ht) as [Ho _]. destruct (classic_alive (b_bars V) (nth t o 0%nat) (nth g R 0)) as [Al|Al].
      - specialize (A4 _ Al). rewrite F4 in A4. cbn [Zsum] in A4.
        assert (Es : Zsum N (fun k0 => get X' k0 g * get (b_coords H') (nth t o 0%nat) k0) = get X' t g).
        { rewrite (Zsum_single N t); [|exact Ht|].
          - rewrite Eco. unfold get at 2. rewrite nth_take_cols by lia. change (vget (col (mident N) (nth t o 0%nat)) (nth t o 0%nat)) with (get (mident N) (nth t o 0%nat) (nth t o 0%nat)). rewrite mident_get by exact Ho. unfold funit. rewrite Nat.eqb_refl. ring.
          - intros i Hi Hne. rewrite Eco. unfold get at 2. rewrite nth_take_cols by lia. change (vget (col (mident N) (nth i o 0%nat)) (nth t o 0%nat)) with (get (mident N) (nth t o 0%nat) (nth i o 0%nat)). rewrite mident_get by (apply Q1; exact Hi).
            assert (Hno : nth i o 0%nat <> nth t o 0%nat) by (intros X0; apply Hne; destruct (Q1 i Hi) as [_ <-]; destruct (Q1 t Ht) as [_ <-]; congruence).
            unfold funit. destruct (Nat.eqb_spec (nth i o 0%nat) (nth t o 0%nat)); [congruence|]. destruct (Nat.eqb_spec (nth t o 0%nat) (nth i o 0%nat)); [congruence|]. ring. }
        rewrite Es in A4. apply (cong_mod_iff p _ _ p_pos) in A4. rewrite Z.add_0_l in A4. rewrite !Z.mod_small in A4 by auto. auto.
      - assert (Zx : get X (nth t o 0%nat) g = 0).
        { destruct (Z.eq_dec (get X (nth t o 0%nat) g) 0) as [|Hne]; [auto|]. elim Al. apply B2; auto. }
        rewrite Zx. destruct (Z.eq_dec (get X' t g) 0) as [|Hne]; [auto|]. elim Al. destruct (A2 t Ht Hne) as [_ Al']. rewrite Nt in Al' by exact Ht. split; [rewrite <- Ld; exact Ho|exact Al']. }
    intros i Hi. specialize (B4 i Hi). rewrite B4. apply cong_eq. f_equal. rewrite (Zsum_perm N (fun k0 => get X k0 g * get (b_coords V) i k0) o HP). apply Zsum_ext. intros t Ht. rewrite (Key t Ht). f_equal.
    unfold get. rewrite nth_take_cols by lia. reflexivity.
Qed.

(** All pages. *)
Definition levels (P : pages) (n d : nat) (I : basis) (h : nat) : Prop := forall k, (1 <= k < np)%nat -> exists V, plev P n d k V I /\ b_dim V = h.

(** The blocks found by [extension] for the second column. *)
Hypothesis Htop : forall n, (2 <= n)%nat -> level n0 nerve n = [].
Theorem extension_two P d H1 I1 H0 I0 exts : (Datatypes.S d < m)%nat ->
  plev P 1 d (np - 1) H1 I1 -> levels P 1 d I1 (b_dim H1) -> plev P 0 (Datatypes.S d) (np - 1) H0 I0 -> levels P 0 (Datatypes.S d) I0 (b_dim H0) ->
  (0 < b_dim H1)%nat -> extension rnd S P np 1 d = Ok exts ->
  exists o0 o1, exts = [o0; o1] /\
    match o0 with Some A => nrows A = b_dim H1 /\ ncols A = b_dim H1 /\ forall i j, get A i j = 0 | None => True end /\
    match o1 with Some A => nrows A = b_dim H0 /\ ncols A = b_dim H1 | None => b_dim H0 = 0%nat end /\
    let E a b := match o1 with Some A => get A a b | None => 0 end in
    (forall a b, (a < b_dim H0)%nat -> (b < b_dim H1)%nat -> E a b <> 0 -> bbirth (b_bars H0) a <= bdeath (b_bars H1) b) /\
    exists u, forall b, (b < b_dim H1)%nat ->
      FC (Datatypes.S d) 0 (bbirth (b_bars H1) b) (u b) /\ (forall x, cong p (dD d 0 (u b) x) (-1 * ch d (cmb d 1 (Spec_IK.column (b_coords H1) b)) x)) /\
      (bdeath (b_bars H1) b < max_r -> exists v, FC (Datatypes.S d) 1 (bdeath (b_bars H1) b) v /\ (forall x, cong p (dD d 1 v x) (cmb d 1 (Spec_IK.column (b_coords H1) b) x)) /\
         PB (Datatypes.S d) 0 (bdeath (b_bars H1) b) (fun x => u b x + -1 * ch (Datatypes.S d) v x - Zsum (b_dim H0) (fun a => E a b * cmb (Datatypes.S d) 0 (Spec_IK.column (b_coords H0) a) x))).
Proof.
  intros Hd (T1 & J1 & reps1 & EH1 & _ & _ & ER1 & EB1 & ED1 & G1 & LI1) LV1 (T0 & J0 & reps0 & EH0 & _ & _ & ER0 & EB0 & ED0 & G0 & LI0) LV0 Hpos E. assert (Hd' : (d < m)%nat) by lia.
  replace (Datatypes.S (np - 1)) with np in LI1, LI0 by lia.
  destruct (reps_one d H1 I1 reps1 Hd' Hpos G1) as (rep & lift & -> & Gr & Gl & Rr & Rl & Hrep).
  pose proof (ge_pb _ _ _ _ _ _ _ _ _ _ _ _ G1 ltac:(first [left; reflexivity | right; unfold row_bars; rewrite Htop by lia; reflexivity])) as PB1. pose proof (ge_dim _ _ _ _ _ _ _ _ _ _ _ _ G1) as Ld1.
  unfold extension in E. rewrite EH1 in E. cbn [bind] in E. unfold death_radii in E. destruct (b_flat T1); [discriminate|]. rewrite EB1 in E. cbn [bind] in E.
  rewrite ER1 in E. cbn [bind] in E.
  rewrite (copy_seq_ok [widths 1 d; widths 0 (Datatypes.S d)] [rep; lift]) in E by (constructor; [exact Gr|constructor; [exact Gl|constructor]]). cbn [bind] in E.
  set (R := map snd (b_bars H1)) in *. assert (LR : length R = b_dim H1) by (unfold R; rewrite map_length; auto).
  assert (NR : forall g, (g < b_dim H1)%nat -> nth g R 0 = bdeath (b_bars H1) g) by (intros g Hg; unfold R; rewrite (nth_map snd (b_bars H1) g (0, 0)) by lia; reflexivity).
  assert (Bar : forall g, (g < b_dim H1)%nat -> bbirth (b_bars H1) g < bdeath (b_bars H1) g <= max_r).
  { intros g Hg. apply (pb_bar p max_r _ _ _ _ PB1). lia. }
  assert (Z1 : forall g, (g < b_dim H1)%nat -> FZ d 1 (bbirth (b_bars H1) g) (cmb d 1 (Spec_IK.column (b_coords H1) g))).
  { intros g Hg. specialize (Bar g Hg). destruct PB1 as (_ & HQ & _). destruct (HQ (bbirth (b_bars H1) g) ltac:(lia)) as (HQ1 & _). apply (HQ1 g); lia. }
  assert (HU : exists u, forall g, (g < b_dim H1)%nat -> FC (Datatypes.S d) 0 (bbirth (b_bars H1) g) (u g) /\ (forall x, cong p (dD d 0 (u g) x) (-1 * ch d (cmb d 1 (Spec_IK.column (b_coords H1) g)) x)) /\
    forall k, (k < length (lev 0))%nat -> (forall j, u g (k, j) = fv lift g (k, j)) \/ (b_bars (hom_of S 0 k d) = [] /\ ~ forall j, cong p (ch d (cmb d 1 (Spec_IK.column (b_coords H1) g)) (k, j)) 0)).
  { apply (pick_fun (fun _ : nat * nat => 0) (b_dim H1) (fun g ug => FC (Datatypes.S d) 0 (bbirth (b_bars H1) g) ug /\ (forall x, cong p (dD d 0 ug x) (-1 * ch d (cmb d 1 (Spec_IK.column (b_coords H1) g)) x)) /\
      forall k, (k < length (lev 0))%nat -> (forall j, ug (k, j) = fv lift g (k, j)) \/ (b_bars (hom_of S 0 k d) = [] /\ ~ forall j, cong p (ch d (cmb d 1 (Spec_IK.column (b_coords H1) g)) (k, j)) 0))). intros g Hg. specialize (Bar g Hg). destruct (Hrep g Hg) as (_ & U1 & U2). apply full_lift; auto. lia. }
  destruct HU as [u HU].
  change (length [rep; lift]) with 2%nat in E. cbn [seq mapM] in E. change (1 - 0)%nat with 1%nat in E. change (1 - 1)%nat with 0%nat in E. rewrite Nat.add_0_r in E. replace (d + 1)%nat with (Datatypes.S d) in E by lia. rewrite EH1, EH0 in E. cbn [bind] in E. rewrite ED1, ED0 in E.
  rewrite (po_max_r _ _ _ _ _ _ _ _ _ _ PO) in E.
  destruct (existsb (fun b => b) (map (fun t => t <? max_r) R)) eqn:Ex.
  2:{ injection E as <-. do 2 eexists. split; [reflexivity|].
      assert (Mz : forall a b i j, get (mzero a b) i j = 0).
      { intros a b i j. unfold get, col, mzero. cbn [cols]. destruct (nth_in_or_default j (repeat (vzero a) b) []) as [X|X].
        - apply repeat_spec in X. unfold vec in *. rewrite X. unfold vget, vzero. destruct (Nat.lt_ge_cases i a); [apply nth_repeat|apply nth_overflow; rewrite repeat_length; auto].
        - unfold vec in *. rewrite X. unfold vget. destruct i; reflexivity. }
      assert (Md : forall a b, ncols (mzero a b) = b) by (intros a b; unfold ncols, mzero; cbn [cols]; apply repeat_length).
      split; [split; [reflexivity|]; split; [rewrite Md; exact LR|apply Mz]|]. split; [split; [reflexivity|rewrite Md; exact LR]|]. cbv zeta. split; [intros a b _ _ X; rewrite Mz in X; contradiction|].
      exists u. intros b Hb. destruct (HU b Hb) as (U1 & U2 & _). split; [exact U1|]. split; [exact U2|]. intros Hlt. exfalso.
      assert (X : existsb (fun b => b) (map (fun t => t <? max_r) R) = true); [|congruence]. apply existsb_exists. exists true. split; [|reflexivity]. apply in_map_iff. exists (nth b R 0).
      split; [apply Z.ltb_lt; rewrite NR by exact Hb; exact Hlt|apply nth_In; lia]. }
  cbn [mapM] in E.
  set (eb := map (fun t => t <? max_r) R) in *. assert (Leb : length eb = b_dim H1) by (unfold eb; rewrite map_length; exact LR).
  assert (Neb : forall g, (g < b_dim H1)%nat -> nth g eb false = (bdeath (b_bars H1) g <? max_r)).
  { intros g Hg. unfold eb. rewrite (nth_map (fun t => t <? max_r) R g 0) by lia. rewrite NR by auto. reflexivity. }
  destruct (zero_out_ok (widths 1 d) eb rep Gr) as (rep' & Er & Gr' & Rr' & Vr'); [rewrite Leb; exact Rr|].
  destruct (zero_out_ok (widths 0 (Datatypes.S d)) eb lift Gl) as (lift' & El & Gl' & Rl' & Vl'); [rewrite Leb; exact Rl|]. rewrite Leb in Rr', Rl'.
  rewrite Er, El in E. cbn [bind] in E.
  destruct (foldM _ _ _) as [[reps' exts']|] eqn:EF in E; [|discriminate]. cbn [bind] in E. injection E as ->. cbn [seq foldM] in EF.
  destruct (extension_step _ _ _ _ _ _ _ _ _ 0) as [[repsA extsA]|] eqn:ES0 in EF; [|discriminate]. cbn [bind] in EF.
  destruct (extension_step _ _ _ _ _ _ _ _ _ 1) as [[repsB extsB]|] eqn:ES1 in EF; [|discriminate]. cbn [bind] in EF. injection EF as -> ->.
  assert (Lev1 : lev 1 <> []).
  { intros Z0. destruct PB1 as (_ & HQ & _). specialize (Bar 0%nat Hpos). destruct (HQ (bbirth (b_bars H1) 0) ltac:(lia)) as (_ & _ & HQ3).
    specialize (HQ3 (fun k => if Nat.eqb k 0 then 1 else 0)).
    assert (X : 1 mod p = 0); [|rewrite Z.mod_1_l in X by (apply prime_ge_2 in Hp; lia); discriminate].
    apply (HQ3) with (k := 0%nat); [| |lia].
    - intros [|k] Hk; [exfalso; apply Hk; lia|reflexivity].
    - apply (subs_zero p Hp); [apply (page2_bounds_sub _ _ _ _ _ _ _ _ HI S d 1 _ Hd')|]. intros x. apply cong_eq. apply Zsum_0. intros k Hk.
      replace (cmb d 1 _ x) with 0; [ring|]. unfold fam_comb. unfold row_bars. fold (lev 1). rewrite Z0. reflexivity. }
  assert (Lev0 : lev 0 <> []).
  { intros Z0. pose proof (lev0_len n0 nerve) as X. cbv beta in X. change (level n0 nerve 0) with (lev 0) in X. rewrite Z0 in X. cbn in X.
    destruct (edge_ok _ _ _ _ _ _ _ _ HI S 0) as [_ Y]; [cbv beta; fold (lev 1); destruct (lev 1); [contradiction|cbn; lia]|lia]. }
  assert (Hcof : has_cofaces n0 nerve 0) by (destruct (proj1 HN 0%nat ltac:(lia)) as [X|X]; [elim Lev1; exact X|exact X]).
  assert (F0 : forall g x, (g < b_dim H1)%nat -> fv rep' g x = if bdeath (b_bars H1) g <? max_r then cmb d 1 (Spec_IK.column (b_coords H1) g) x else 0).
  { intros g x Hg. unfold fv. rewrite Vr', Neb by auto. destruct (_ <? _); [|reflexivity]. apply (proj1 (Hrep g Hg)). }
  assert (F1 : forall g, (g < b_dim H1)%nat -> FZ d 1 (bdeath (b_bars H1) g) (fv rep' g)).
  { intros g Hg. specialize (Bar g Hg). destruct (Z.ltb_spec (bdeath (b_bars H1) g) max_r) as [L|L].
    - apply (sub_ext p _ (cmb d 1 (Spec_IK.column (b_coords H1) g))); [apply FZs|intros x; rewrite F0 by auto; apply Z.ltb_lt in L; rewrite L; reflexivity|].
      destruct PB1 as (_ & _ & PBd). apply (PBd _ g L); lia.
    - apply (subs_zero p Hp); [apply FZs|]. intros x. rewrite F0 by auto. apply Z.ltb_ge in L. rewrite L. reflexivity. }
  (* the second column *)
  destruct (flift 1 d rep' R ltac:(lia) Hd' Gr') as (B & lf & EL & NB & CB & WB & RB & GL & RL & HB); auto.
  { rewrite LR. exact Rr'. }
  { rewrite LR. intros g Hg. rewrite NR by auto. destruct (Z.ltb_spec (bdeath (b_bars H1) g) max_r) as [L|L]; [left; exact L|right]. intros x. rewrite F0 by auto. apply Z.ltb_ge in L. rewrite L. reflexivity. }
  { rewrite LR. intros g Hg. rewrite NR by auto. apply F1. exact Hg. }
  rewrite LR in NB, RL, HB.
  unfold extension_step in ES0. change (1 - 0)%nat with 1%nat in ES0. rewrite Nat.add_0_r in ES0. change (nth_err [rep'; lift'] 0) with (Ok rep') in ES0. cbn [bind] in ES0. rewrite EL in ES0. cbn [bind] in ES0.
  destruct (lift_to_page rnd S P 1 d np B (map (fun t => (t, max_r)) R)) as [[o0 gm0]|] eqn:EO0; [|discriminate]. cbn [bind] in ES0.
  assert (I10 : b_dim I1 = 0%nat).
  { apply (ge_im0 _ _ _ _ _ _ _ _ _ _ _ _ G1). unfold row_bars. rewrite (Htop 2) by lia. reflexivity. }
  assert (ZB : forall k V, plev P 1 d k V I1 -> b_dim V = b_dim H1 -> forall o gm, lift_to_page rnd S P 1 d (Datatypes.S k) B (map (fun t => (t, max_r)) R) = Ok (o, gm) ->
    exists X0 Y0, o = Some X0 /\ gm = Some Y0 /\ nrows X0 = b_dim H1 /\ ncols X0 = b_dim H1 /\ many X0 = false /\ many Y0 = false).
  { intros k V (_ & _ & reps & _ & _ & _ & _ & _ & _ & GV & LV) EVd o gm EO.
    destruct (LV B R o gm ltac:(rewrite LR; exact NB) CB WB EO) as [(Z0 & _)|(_ & X0 & G & Y0 & -> & -> & NX & CX & WX & MY & HX)]; [lia|].
    rewrite LR in CX, HX. rewrite EVd in NX. pose proof (ge_pb _ _ _ _ _ _ _ _ _ _ _ _ GV ltac:(first [left; reflexivity | right; unfold row_bars; rewrite Htop by lia; reflexivity])) as PBV. pose proof (ge_dim _ _ _ _ _ _ _ _ _ _ _ _ GV) as LdV.
    exists X0, G. split; [reflexivity|]. split; [reflexivity|]. split; [exact NX|]. split; [exact CX|]. split; [|apply MY; exact I10].
    apply zero_many; [exact WX|]. rewrite NX, CX.
    intros i j Hi Hj. destruct (HX j Hj) as (Rg & Al & AlY & Rel). rewrite NR in Al, AlY, Rel by auto. pose proof (Bar j Hj) as Bj.
    destruct (Z_lt_ge_dec (bdeath (b_bars H1) j) max_r) as [L|L].
    - destruct (HB j Hj) as (W1 & W2 & W3 & _). rewrite NR in W1, W2 by auto.
      pose proof (lift_rel2 d 1 V I1 reps (bdeath (b_bars H1) j) (fv rep' j) (fv lf j) (get B j) (fun k => get X0 k j) (fun k => get Y0 k j) Hd' L GV W1 W3 W2 Al AlY Rel) as F.
      pose proof (page2_bounds_sub _ _ _ _ _ _ _ _ HI S d 1 (bdeath (b_bars H1) j) Hd') as Su.
      assert (F2 : PB d 1 (bdeath (b_bars H1) j) (fv rep' j)).
      { apply (sub_ext p _ (cmb d 1 (Spec_IK.column (b_coords H1) j))); [exact Su|intros x; rewrite F0 by auto; apply Z.ltb_lt in L; rewrite L; reflexivity|]. destruct PB1 as (_ & _ & PBd). apply (PBd _ j L); lia. }
      destruct PBV as (_ & HQ & _). destruct (HQ _ L) as (_ & _ & HQ3).
      pose (cc := fun k => if Nat.ltb k (b_dim V) then get X0 k j else 0).
      assert (M0 : cc i mod p = 0).
      { apply (HQ3 cc); [| |lia].
        - intros t Ht. unfold cc. destruct (Nat.ltb_spec t (b_dim V)) as [Lk|Lk]; [|reflexivity]. destruct (Z.eq_dec (get X0 t j) 0) as [|Hne]; [auto|]. elim Ht. apply (Al t Lk Hne).
        - refine (sub_ext p _ _ _ Su _ (subs_sub p _ _ _ Su F2 F)). intros x. cbv beta. rewrite <- LdV.
          rewrite (Zsum_ext _ (fun k => cc k * _) (fun k => get X0 k j * cmb d 1 (Spec_IK.column (b_coords V) k) x)); [ring|]. intros t Ht. unfold cc. apply Nat.ltb_lt in Ht. rewrite Ht. reflexivity. }
      unfold cc in M0. replace (Nat.ltb i (b_dim V)) with true in M0 by (symmetry; apply Nat.ltb_lt; lia). rewrite Z.mod_small in M0 by apply Rg. exact M0.
    - destruct (Z.eq_dec (get X0 i j) 0) as [|Hne]; [auto|]. exfalso. destruct (Al i ltac:(lia) Hne) as [_ [_ A]]. pose proof (pb_bar p max_r _ _ _ _ PBV i ltac:(lia)) as Bv. unfold bdeath in *. lia. }
  destruct (LV1 (np - 1)%nat ltac:(lia)) as (V1 & PV1 & DV1).
  destruct (ZB (np - 1)%nat V1 PV1 DV1 o0 gm0 ltac:(replace (Datatypes.S (np - 1)) with np by lia; exact EO0)) as (X0 & Y0 & -> & -> & NX & CX & MX & MY).
  assert (FG : forall l, (forall tp, In tp l -> (2 <= tp <= np)%nat) -> forall c2, foldM (reduce_gammas rnd S P 1 d R (map (fun t => (t, max_r)) R)) l rep' = Ok c2 -> c2 = rep').
  { induction l as [|tp l IH]; intros Hl c2 E2; cbn [foldM] in E2; [injection E2 as <-; reflexivity|].
    destruct (reduce_gammas rnd S P 1 d R _ rep' tp) as [c1|] eqn:E3; [|discriminate]. cbn [bind] in E2. unfold reduce_gammas in E3. rewrite EL in E3. cbn [bind] in E3.
    destruct (lift_to_page rnd S P 1 d tp B _) as [[o gm]|] eqn:EO; [|discriminate]. cbn [bind] in E3. pose proof (Hl tp (or_introl eq_refl)) as Ht.
    destruct (LV1 (tp - 1)%nat ltac:(lia)) as (V & PV & DV). destruct (ZB (tp - 1)%nat V PV DV o gm ltac:(replace (Datatypes.S (tp - 1)) with tp by lia; exact EO)) as (X2 & Y2 & -> & -> & _ & _ & M2 & M3).
    cbn [any_opt] in E3. rewrite M2, M3 in E3. injection E3 as <-. apply IH; [intros t Ht'; apply Hl; right; exact Ht'|exact E2]. }
  rewrite ER1 in ES0. cbn [bind] in ES0. unfold reduce_betas in ES0. cbn [any_opt] in ES0. rewrite MX in ES0. cbn [bind] in ES0. change (nth_err [rep'; lift'] 0) with (Ok rep') in ES0. cbn [bind] in ES0.
  destruct (foldM _ (rev (seq 2 (np - 1))) rep') as [c2|] eqn:EG; [|discriminate]. cbn [bind] in ES0.
  apply FG in EG; [|intros tp Htp; apply in_rev in Htp; apply in_seq in Htp; lia]. subst c2.
  rewrite EL in ES0. cbn [bind] in ES0. destruct (many B) eqn:MB; [discriminate|].
  pose proof (many_zero _ MB) as B00.
  assert (LF : forall g x, (g < b_dim H1)%nat -> cong p (dD d 1 (fv lf g) x) (fv rep' g x)).
  { intros g x Hg. destruct (HB g Hg) as (_ & _ & W & _). rewrite (W x). transitivity (dD d 1 (fv lf g) x + 0); [apply cong_eq; ring|]. apply cong_add; [reflexivity|]. symmetry.
    transitivity (cmb d 1 (fun _ => 0) x); [apply cmb_cong; intros h _; rewrite B00; reflexivity|]. apply cong_eq. unfold fam_comb. apply Zsum_0. intros; ring. }
  pose proof (po_p _ _ _ _ _ _ _ _ _ _ PO) as Ep.
  destruct (minus_ok (widths 1 (Datatypes.S d)) p lf GL) as (Gm & Rm & Vm).
  pose proof Hlen as N1.
  destruct (cech_diff_ok _ _ _ _ _ _ _ _ _ HI S PO 0 (Datatypes.S d) (minus_chains p lf) N1 ltac:(unfold m in Hd; lia) Hcof Gm) as (im & Eim & _).
  destruct (cech_refs 0 (Datatypes.S d) (minus_chains p lf) im (b_dim H1) N1 ltac:(unfold m in *; lia) Hcof Gm) as (Gim & Rim); [intros k g Hk; rewrite Rm in Hk; eapply RL; eauto|exact Eim|].
  destruct (add_chains_ok (widths 0 (Datatypes.S d)) lift' im Gl' Gim) as (c & Ec & Gc & Rc & Vc).
  rewrite Ep in ES0. change (1 + d)%nat with (Datatypes.S d) in ES0. rewrite Eim in ES0. cbn [bind] in ES0. change (nth_err [rep'; lift'] (1 + 0)) with (Ok lift') in ES0. cbn [bind] in ES0. rewrite Ec in ES0. cbn [bind list_set Nat.add app] in ES0.
  injection ES0 as <- <-.
  assert (Rc' : forall k g, In g (le_ref (nth k c e0)) -> (g < b_dim H1)%nat) by (intros k g Hk; apply Rc in Hk; destruct Hk as [Hk|Hk]; [eapply Rl'|eapply Rim]; eauto).
  pose proof (L_dD p IN n0 nerve S d 0) as Ld0.
  assert (Lcd : linear p (ch d)) by (apply (L_ch max_dim p IN n0 nerve S); unfold m in Hd; lia).
  assert (Lch : linear p (ch (Datatypes.S d))) by (apply (L_ch max_dim p IN n0 nerve S); unfold m in Hd; lia).
  assert (Fc : forall g x, cong p (fv c g x) (fv lift' g x + -1 * ch (Datatypes.S d) (fv lf g) x)).
  { intros g [k j]. unfold fv at 1. cbn [fst snd]. rewrite Vc. apply cong_add; [reflexivity|]. rewrite <- lin_scale by exact Lch.
    destruct (Nat.lt_ge_cases k (length (lev 0))) as [L|L].
    - rewrite (cech_value _ _ _ _ _ _ _ _ _ HI S PO 0 (Datatypes.S d) (minus_chains p lf) im k g j N1 ltac:(unfold m in Hd; lia) Hcof Gm Eim L).
      transitivity (ch (Datatypes.S d) (fv (minus_chains p lf) g) (k, j)); [apply cong_eq; symmetry; apply (fci IN n0 nerve S (Datatypes.S d) 0 (fv (minus_chains p lf) g) k L j)|].
      apply (lin_ext _ _ Lch). intros x. unfold fv. rewrite Vm. apply (cong_mod_iff p _ _ p_pos). rewrite Zmod_mod. f_equal.
    - rewrite fco by exact L. pose proof (fv_out im 0 (Datatypes.S d) g k j Gim L) as X. unfold fv in X. cbn [fst snd] in X. rewrite X. reflexivity. }
  assert (Fl : forall g x, (g < b_dim H1)%nat -> fv lift' g x = if bdeath (b_bars H1) g <? max_r then fv lift g x else 0).
  { intros g x Hg. unfold fv. rewrite Vl', Neb by auto. destruct (_ <? _); reflexivity. }
  assert (Fz : forall g, (g < b_dim H1)%nat -> max_r <= bdeath (b_bars H1) g -> forall x, cong p (fv c g x) 0).
  { intros g Hg L x. rewrite Fc, Fl by auto. apply Z.ltb_ge in L. rewrite L. destruct (HB g Hg) as (_ & _ & _ & W & _). 
    rewrite (lin_zero p (ch (Datatypes.S d)) (fv lf g) x Lch); [reflexivity|]. intros y. rewrite W; [reflexivity|]. intros z. rewrite F0 by auto. rewrite L. reflexivity. }
  assert (Fc' : forall g, (g < b_dim H1)%nat -> bdeath (b_bars H1) g < max_r -> forall x, cong p (fv c g x) (fv lift g x + -1 * ch (Datatypes.S d) (fv lf g) x)).
  { intros g Hg L x. rewrite Fc, Fl by auto. apply Z.ltb_lt in L. rewrite L. reflexivity. }
  assert (LF' : forall g, (g < b_dim H1)%nat -> bdeath (b_bars H1) g < max_r -> forall x, cong p (dD d 1 (fv lf g) x) (cmb d 1 (Spec_IK.column (b_coords H1) g) x)).
  { intros g Hg L x. rewrite LF, F0 by auto. apply Z.ltb_lt in L. rewrite L. reflexivity. }
  assert (LfC : forall g, (g < b_dim H1)%nat -> FC (Datatypes.S d) 1 (bdeath (b_bars H1) g) (fv lf g)).
  { intros g Hg. destruct (HB g Hg) as (W & _). rewrite NR in W by auto. exact W. }
  unfold extension_step in ES1. change (1 - 1)%nat with 0%nat in ES1. replace (d + 1)%nat with (Datatypes.S d) in ES1 by lia. change (nth_err [rep'; c] 1) with (Ok c) in ES1. cbn [bind] in ES1.
  destruct (first_page_lift S 0 (Datatypes.S d) c R) as [[B' lf']|] eqn:EL'; [|discriminate]. cbn [bind] in ES1.
  assert (Q : forall g, (g < b_dim H1)%nat -> bdeath (b_bars H1) g < max_r -> FZ (Datatypes.S d) 0 (bdeath (b_bars H1) g) (fun x => u g x + -1 * ch (Datatypes.S d) (fv lf g) x)).
  { intros g Hg L. specialize (Bar g Hg).
    destruct (HU g Hg) as (U1 & U2 & _). apply (fam_cycle_iff _ _ _ _ _ _ _ _ HI S d 0). split.
    - refine (sub_ext p _ (fun x => u g x - ch (Datatypes.S d) (fv lf g) x) _ _ _ _); [apply (FC_sub argsort Dist max_r max_dim p IN n0 nerve HI S)|intros; ring|]. apply (subs_sub p); [apply (FC_sub argsort Dist max_r max_dim p IN n0 nerve HI S)| |].
      + eapply FC_mono; [|exact U1]. lia.
      + apply (In_ch _ _ _ _ _ _ _ _ _ HI S PO Hlen); [unfold m in Hd; lia|]. apply LfC. exact Hg.
    - intros x. rewrite lin_add by exact Ld0. rewrite lin_scale by exact Ld0. rewrite U2.
      rewrite (comm _ _ _ _ _ _ _ _ _ HI S PO Hlen d (fv lf g) x) by (unfold m in Hd; lia).
      rewrite (lin_ext _ _ Lcd _ _ (LF' g Hg L)). apply cong_eq. ring. }
  (* the chain of the code, without the entries over elements in which there are no cycles *)
  pose (dead := fun k => match b_bars (im_of S 0 k (Datatypes.S d)), b_bars (hom_of S 0 k (Datatypes.S d)) with [], [] => true | _, _ => false end).
  assert (Hdead : forall k, dead k = true -> b_bars (im_of S 0 k (Datatypes.S d)) = [] /\ b_bars (hom_of S 0 k (Datatypes.S d)) = []).
  { intros k. unfold dead. destruct (b_bars (im_of S 0 k (Datatypes.S d))); [|discriminate]. destruct (b_bars (hom_of S 0 k (Datatypes.S d))); [auto|discriminate]. }
  pose (c1 := wipe dead c).
  assert (Fw : forall g k j, fv c1 g (k, j) = if dead k then 0 else fv c g (k, j)) by (intros g k j; unfold fv, c1; apply wipe_value).
  assert (D : forall g, (g < b_dim H1)%nat -> bdeath (b_bars H1) g < max_r -> FB (Datatypes.S d) 0 (bdeath (b_bars H1) g) (fun x => u g x + -1 * ch (Datatypes.S d) (fv lf g) x - fv c1 g x)).
  { intros g Hg L. destruct (Q g Hg L) as [Q0 Q1]. split.
    - intros k j Hk. apply iff0. pose proof (Q0 k j Hk) as X. apply iff0 in X. cbv beta in X. rewrite X. rewrite (fv_out c1 0 (Datatypes.S d)); [reflexivity|apply wipe_good; exact Gc|exact Hk].
    - intros k Hk. pose proof (local_bounds_sub argsort Dist max_r max_dim p IN n0 nerve HI S 0 (Datatypes.S d) k (bdeath (b_bars H1) g)) as Su.
      destruct (dead k) eqn:Dk.
      + apply (sub_ext p _ (part (fun x => u g x + -1 * ch (Datatypes.S d) (fv lf g) x) k)); [exact Su|intros j; unfold part; rewrite Fw, Dk; ring|].
        destruct (Hdead k Dk) as [_ Eb]. apply no_class; [lia|exact Hk|exact Hd|exact L|exact Eb|]. apply Q1. exact Hk.
      + apply (subs_zero p Hp); [exact Su|]. intros j. unfold part. rewrite Fw, Dk.
        destruct (HU g Hg) as (_ & _ & U3). destruct (U3 k Hk) as [Eu|[Eb Hne]].
        * rewrite Eu, (Fc' g Hg L (k, j)). apply cong_eq. ring.
        * exfalso. apply Hne. intros i.
          destruct (lifted_cycle argsort rnd Dist max_r max_dim p IN n0 nerve HI S PO 0 (Datatypes.S d) c R ltac:(lia) Hd Gc ltac:(rewrite LR; exact Rc') _ k EL' Hk) as [[X Y]|X].
          { unfold dead in Dk. rewrite X, Y in Dk. discriminate. }
          destruct (X g ltac:(lia)) as [_ X2]. specialize (X2 i). apply iff0 in X2.
          pose proof (dD_in IN n0 nerve S d 0 (fv c g) k Hk i) as X3. change (part (fv c g) k) with (value c k g) in X3. rewrite <- X3 in X2.
          rewrite (lin_ext _ _ Ld0 _ _ (Fc' g Hg L)) in X2. rewrite lin_add in X2 by exact Ld0. rewrite lin_scale in X2 by exact Ld0.
          rewrite (comm _ _ _ _ _ _ _ _ _ HI S PO Hlen d (fv lf g) (k, i)) in X2 by (unfold m in Hd; lia).
          rewrite (lin_ext _ _ Lcd _ _ (LF' g Hg L)) in X2.
          assert (X4 : dD d 0 (fv lift g) (k, i) = 0).
          { rewrite dD_in by exact Hk. unfold local_bd. apply Zsum_0. intros t Ht. unfold part. destruct (Hrep g Hg) as (_ & _ & R0). destruct (R0 k Hk) as [R1 _]. rewrite (R1 Eb). ring. }
          rewrite X4 in X2. transitivity (-1 * (0 + -1 * ch d (cmb d 1 (Spec_IK.column (b_coords H1) g)) (k, i))); [apply cong_eq; ring|]. rewrite X2. reflexivity. }
  assert (Fz1 : forall g, (g < b_dim H1)%nat -> max_r <= bdeath (b_bars H1) g -> forall x, cong p (fv c1 g x) 0).
  { intros g Hg L [k j]. rewrite Fw. destruct (dead k); [reflexivity|]. apply Fz; auto. }
  assert (F2 : forall g, (g < b_dim H1)%nat -> FZ (Datatypes.S d) 0 (bdeath (b_bars H1) g) (fv c1 g)).
  { intros g Hg. destruct (Z_lt_ge_dec (bdeath (b_bars H1) g) max_r) as [L|L].
    2:{ apply (subs_zero p Hp); [apply FZs|]. apply Fz1; [exact Hg|lia]. }
    refine (sub_ext p _ _ _ (FZs _ _ _) _ (subs_sub p _ _ _ (FZs _ _ _) (Q g Hg L) (fam_bounds_cycle _ _ _ _ _ _ _ _ _ HI S PO (Datatypes.S d) Hd (proj2 HN) _ _ _ (D g Hg L)))). intros x. ring. }
  (* the first column *)
  destruct (flift 0 (Datatypes.S d) c1 R ltac:(lia) Hd (wipe_good _ _ _ Gc)) as (B2' & lf2' & EL2 & NB' & CB' & WB' & RB' & GL' & RL' & HB'); auto.
  { rewrite LR. intros k g Hk. apply wipe_refs in Hk. eapply Rc'; eauto. }
  { rewrite LR. intros g Hg. rewrite NR by auto. destruct (Z_lt_ge_dec (bdeath (b_bars H1) g) max_r) as [L|L]; [left; exact L|right]. apply Fz1; [exact Hg|lia]. }
  { rewrite LR. intros g Hg. rewrite NR by auto. apply F2. exact Hg. }
  unfold c1 in EL2. rewrite (wipe_lift argsort rnd Dist max_r max_dim p IN n0 nerve HI S PO 0 (Datatypes.S d) c R ltac:(lia) Hd Gc ltac:(rewrite LR; exact Rc') dead (fun k _ X => Hdead k X)) in EL2. rewrite EL' in EL2. injection EL2 as <- <-.
  rewrite LR in NB', RL', HB'.
  destruct (lift_to_page rnd S P 0 (Datatypes.S d) np B' (map (fun t => (t, max_r)) R)) as [[o1 gm1]|] eqn:EO1; [|discriminate]. cbn [bind] in ES1.
  rewrite ER0 in ES1. cbn [bind] in ES1.
  assert (Eexts : exts = [Some X0; o1]).
  { destruct (reduce_betas _ _ _ _ _) as [r1|]; [|discriminate]. cbn [bind] in ES1. destruct (nth_err r1 1) as [c3|]; [|discriminate]. cbn [bind] in ES1.
    destruct (foldM _ _ _) as [c2|]; [|discriminate]. cbn [bind] in ES1. destruct (first_page_lift S 0 (Datatypes.S d) c2 R) as [[b2 l2]|]; [|discriminate]. cbn [bind] in ES1.
    destruct (many b2); [discriminate|]. cbn [bind app] in ES1. injection ES1 as <- <-. reflexivity. }
  exists (Some X0), o1. split; [exact Eexts|]. split; [split; [exact NX|]; split; [exact CX|apply many_zero; exact MX]|].
  destruct (LI0 B' R o1 gm1 ltac:(rewrite LR; exact NB') CB' WB' EO1) as [(Z0 & -> & ->)|(Hpos0 & X1 & G1' & Y1 & -> & -> & NX1 & CX1 & WX1 & MY1 & HX1)].
  - split; [exact Z0|]. cbv zeta. split; [intros a b Ha; lia|]. exists u. intros b Hb. destruct (HU b Hb) as (U1 & U2 & _). split; [exact U1|]. split; [exact U2|]. intros L.
    exists (fv lf b). split; [apply LfC; exact Hb|]. split; [apply LF'; auto|].
    unfold reduce_betas in ES1. cbn [any_opt bind] in ES1. change (nth_err [rep'; c] 1) with (Ok c) in ES1. cbn [bind] in ES1. 
    assert (FG' : forall l, (forall tp, In tp l -> (2 <= tp <= np)%nat) -> forall c2, foldM (reduce_gammas rnd S P 0 (Datatypes.S d) R (map (fun t => (t, max_r)) R)) l c = Ok c2 -> c2 = c).
    { induction l as [|tp l IH]; intros Hl c2 E2; cbn [foldM] in E2; [injection E2 as <-; reflexivity|].
      destruct (reduce_gammas rnd S P 0 (Datatypes.S d) R _ c tp) as [c3|] eqn:E3; [|discriminate]. cbn [bind] in E2. unfold reduce_gammas in E3. rewrite EL' in E3. cbn [bind] in E3.
      destruct (lift_to_page rnd S P 0 (Datatypes.S d) tp B' _) as [[o gm]|] eqn:EO; [|discriminate]. cbn [bind] in E3. pose proof (Hl tp (or_introl eq_refl)) as Ht.
      destruct (LV0 (tp - 1)%nat ltac:(lia)) as (V & (_ & _ & rp & _ & _ & _ & _ & _ & _ & _ & LV) & DV).
      destruct (LV B' R o gm ltac:(rewrite LR; exact NB') CB' WB' ltac:(replace (Datatypes.S (tp - 1)) with tp by lia; exact EO)) as [(_ & -> & ->)|(W & _)]; [|lia].
      cbn [any_opt] in E3. injection E3 as <-. apply IH; [intros t Ht'; apply Hl; right; exact Ht'|exact E2]. }
    destruct (foldM _ (rev (seq 2 (np - 1))) c) as [c2|] eqn:EG'; [|discriminate]. cbn [bind] in ES1.
    apply FG' in EG'; [|intros tp Htp; apply in_rev in Htp; apply in_seq in Htp; lia]. subst c2.
    rewrite EL' in ES1. cbn [bind] in ES1. destruct (many B') eqn:MB'; [discriminate|].
    pose proof (many_zero _ MB') as B00'. destruct (HB' b Hb) as (W1 & _ & W3 & _). rewrite NR in W1 by auto.
    apply fb_pb; [exact Hd|]. refine (subs_cong p Hp _ _ _ (FBs _ _ _) _ (sub_add p _ _ _ (FBs _ _ _) (D b Hb L) (FB_dD (Datatypes.S d) 0 _ (fv lf' b) W1))).
    intros x. rewrite Z0. cbn [Zsum]. transitivity (u b x + -1 * ch (Datatypes.S d) (fv lf b) x - fv c1 b x + fv c1 b x); [|apply cong_eq; ring]. apply cong_add; [reflexivity|]. rewrite (W3 x).
    transitivity (dD (Datatypes.S d) 0 (fv lf' b) x + cmb (Datatypes.S d) 0 (fun _ => 0) x).
    + apply cong_eq. unfold fam_comb. rewrite (Zsum_0 _ (fun i => 0 * _)); [ring|]. intros; ring.
    + apply cong_add; [reflexivity|]. apply cmb_cong. intros h _. rewrite B00'. reflexivity.
  - rewrite LR in CX1, HX1. split; [split; [exact NX1|exact CX1]|]. cbv zeta. split.
    + intros a b Ha Hb Hne. destruct (HX1 b Hb) as (_ & Al & _). rewrite NR in Al by auto. destruct (Al a Ha Hne) as [_ [X _]]. exact X.
    + exists u. intros b Hb. destruct (HU b Hb) as (U1 & U2 & _). split; [exact U1|]. split; [exact U2|]. intros L.
      exists (fv lf b). split; [apply LfC; exact Hb|]. split; [apply LF'; auto|].
      destruct (HX1 b Hb) as (Rg & Al & AlY & Rel). destruct (HB' b Hb) as (W1 & W2 & W3 & _). rewrite NR in Al, AlY, Rel, W1, W2 by auto.
      pose proof (lift_rel2 (Datatypes.S d) 0 H0 I0 reps0 (bdeath (b_bars H1) b) (fv c1 b) (fv lf' b) (get B' b) (fun k => get X1 k b) (fun k => get Y1 k b) Hd L G0 W1 W3 W2 Al AlY Rel) as F.
      pose proof (page2_bounds_sub _ _ _ _ _ _ _ _ HI S (Datatypes.S d) 0 (bdeath (b_bars H1) b) Hd) as Su.
      refine (sub_ext p _ _ _ Su _ (sub_add p _ _ _ Su (fb_pb _ _ _ _ Hd (D b Hb L)) F)). intros x. cbv beta. ring.
Qed.
End Ext.
