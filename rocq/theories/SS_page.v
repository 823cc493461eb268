(** * The 0 page: totality, access to its parts, and the bookkeeping of the first page (C47) *)
From Verif Require Import Base ListX SortX Lin Basis_model PH_model PH_lin PH_props Simp_model Spec_Simp Simp_lists Simp_diff Simp_props
  Spec_PH Spec_Rips Rips_bd Rips_chain Rips_props LC_model LC_props SS_model Spec_SS SS_inv.
From Coq Require Import Sorted Permutation Znumtheory.
Local Open Scope Z_scope.

(** ** [add_output_first] *)
Lemma cumulate_length s l : length (cumulate s l) = length l.
Proof. revert s. induction l; simpl; auto. Qed.

Lemma cumulate_nth l : forall s k, (k < length l)%nat -> nth k (cumulate s l) 0%nat = (s + list_sum (firstn (S k) l))%nat.
Proof.
  induction l as [|x l IH]; intros s [|k] Hk; cbn [length] in Hk; try lia; cbn [cumulate nth].
  - simpl. lia.
  - rewrite IH by lia. cbn [firstn list_sum fold_right]. simpl. lia.
Qed.

Lemma cumulate_last l : forall s, last (cumulate s l) s = (s + list_sum l)%nat.
Proof.
  induction l as [|x l IH]; intros s; cbn [cumulate]; [simpl; lia|].
  transitivity (last (cumulate (s + x) l) (s + x)%nat).
  - destruct (cumulate (s + x) l) eqn:E; [reflexivity|]. clear. revert n. induction l0 as [|y l0 IH]; intros n; [reflexivity|].
    change (last (n :: y :: l0) (s + x)%nat) with (last (y :: l0) (s + x)%nat).
    change (last ((s + x)%nat :: n :: y :: l0) s) with (last (n :: y :: l0) s).
    specialize (IH y). simpl in IH. simpl. exact IH.
  - rewrite IH. unfold list_sum. simpl. lia.
Qed.

Lemma list_sum_length {A} (ls : list (list A)) : length (concat ls) = list_sum (map (@length A) ls).
Proof. induction ls as [|x ls IH]; simpl; auto. rewrite app_length, IH. reflexivity. Qed.

Lemma concat_nth {A} (ls : list (list A)) d : forall k i, (k < length ls)%nat -> (i < length (nth k ls []))%nat ->
  nth (list_sum (map (@length A) (firstn k ls)) + i) (concat ls) d = nth i (nth k ls []) d.
Proof.
  induction ls as [|x ls IH]; intros [|k] i Hk Hi; cbn [length] in Hk; try lia; cbn [firstn map concat nth] in *.
  - simpl. apply app_nth1. auto.
  - change (list_sum (length x :: map (@length A) (firstn k ls))) with (length x + list_sum (map (@length A) (firstn k ls)))%nat.
    rewrite app_nth2 by lia. rewrite <- (IH k i) by (auto; lia). f_equal. lia.
Qed.

Lemma list_sum_firstn_S l k : (k < length l)%nat -> list_sum (firstn (S k) l) = (list_sum (firstn k l) + nth k l 0)%nat.
Proof.
  revert k. induction l as [|x l IH]; intros [|k] Hk; cbn [length] in Hk; try lia.
  - simpl. lia.
  - change (firstn (S (S k)) (x :: l)) with (x :: firstn (S k) l). change (firstn (S k) (x :: l)) with (x :: firstn k l).
    change (list_sum (x :: firstn (S k) l)) with (x + list_sum (firstn (S k) l))%nat. rewrite IH by lia. simpl. lia.
Qed.

Lemma list_sum_firstn_le l k : (list_sum (firstn k l) <= list_sum l)%nat.
Proof.
  revert k. induction l as [|x l IH]; intros [|k]; cbn [firstn]; try (simpl; lia).
  specialize (IH k). change (list_sum (x :: firstn k l)) with (x + list_sum (firstn k l))%nat. change (list_sum (x :: l)) with (x + list_sum l)%nat. lia.
Qed.

(** Every position below the total is in the window of exactly one term. *)
Lemma window_exists l g : (g < list_sum l)%nat -> exists k, (k < length l)%nat /\ (list_sum (firstn k l) <= g < list_sum (firstn (S k) l))%nat.
Proof.
  revert g. induction l as [|x l IH]; intros g Hg; [simpl in Hg; lia|].
  change (list_sum (x :: l)) with (x + list_sum l)%nat in Hg.
  destruct (Nat.lt_ge_cases g x) as [H|H].
  - exists 0%nat. simpl. lia.
  - destruct (IH (g - x)%nat) as (k & Hk & Hw); [lia|]. exists (S k). split; [simpl; lia|].
    change (firstn (S k) (x :: l)) with (x :: firstn k l). change (firstn (S (S k)) (x :: l)) with (x :: firstn (S k) l).
    change (list_sum (x :: firstn k l)) with (x + list_sum (firstn k l))%nat.
    change (list_sum (x :: firstn (S k) l)) with (x + list_sum (firstn (S k) l))%nat. lia.
Qed.

Lemma firstn_sum_mono l k k' : (k <= k')%nat -> (list_sum (firstn k l) <= list_sum (firstn k' l))%nat.
Proof. intros H. replace (firstn k l) with (firstn k (firstn k' l)) by (rewrite firstn_firstn; f_equal; lia). apply list_sum_firstn_le. Qed.

Lemma window_unique l g k k' : (list_sum (firstn k l) <= g < list_sum (firstn (S k) l))%nat ->
  (list_sum (firstn k' l) <= g < list_sum (firstn (S k') l))%nat -> k = k'.
Proof.
  intros H H'. destruct (lt_eq_lt_dec k k') as [[L|L]|L]; auto; exfalso.
  - pose proof (firstn_sum_mono l (S k) k' L). lia.
  - pose proof (firstn_sum_mono l (S k') k L). lia.
Qed.

Lemma first_row_ok out deg : (forall l, In l out -> exists h, hom0 l deg = Ok h /\ b_dim h = length (b_bars h)) ->
  exists hs, length hs = length out /\
    (forall k dl, (k < length out)%nat -> hom0 (nth k out dl) deg = Ok (nth k hs empty_basis)) /\
    (forall h, In h hs -> b_dim h = length (b_bars h)) /\
    first_row out (length out) deg = Ok (cumulate 0 (map b_dim hs) ++ [0%nat], list_sum (map b_dim hs), concat (map b_bars hs)).
Proof.
  intros H. destruct (mapM_total (fun l => hom0 l deg) out) as (hs & Ehs).
  { intros l Hl. destruct (H l Hl) as (h & Eh & _). eauto. }
  destruct (mapM_Ok _ _ _ Ehs) as [Lhs Nhs]. exists hs. split; [auto|].
  assert (Hd : forall h, In h hs -> b_dim h = length (b_bars h)).
  { intros h Hh. apply (In_nth _ _ empty_basis) in Hh. destruct Hh as (k & Hk & <-). rewrite Lhs in Hk.
    destruct out as [|l0 out]; [simpl in Hk; lia|].
    specialize (Nhs k l0 empty_basis Hk). destruct (H (nth k (l0 :: out) l0)) as (h & Eh & Ed); [apply nth_In; auto|].
    rewrite Eh in Nhs. injection Nhs as <-. auto. }
  split; [intros k dl Hk; apply Nhs; auto|]. split; [auto|].
  unfold first_row. assert (Et : take_err out (seq 0 (length out)) = Ok out).
  { destruct out as [|l0 out]; [reflexivity|]. rewrite (take_err_pure _ _ l0) by (intros i Hi; apply in_seq in Hi; lia).
    rewrite map_nth_seq. reflexivity. }
  rewrite Et. cbn [bind]. rewrite Ehs. cbn [bind]. rewrite cumulate_last. rewrite Nat.add_0_l.
  destruct (Nat.eqb_spec (list_sum (map b_dim hs)) 0) as [E0|E0].
  - cbn [bind]. replace (concat (map b_bars hs)) with (@nil bar); [reflexivity|].
    symmetry. apply length_zero_iff_nil. rewrite list_sum_length, map_map. rewrite <- E0. f_equal.
    apply map_ext_in. intros h Hh. symmetry. auto.
  - rewrite (mapM_pure _ b_bars); [reflexivity|]. intros h Hh. rewrite (Hd h Hh). rewrite Nat.eqb_refl.
    destruct (Nat.ltb_spec 0 (length (b_bars h))) as [L|L]; auto. replace (b_bars h) with (@nil bar); auto.
    symmetry. apply length_zero_iff_nil. lia.
Qed.

Lemma add_output_first_ok rows out : out <> [] ->
  (forall deg l, (deg < rows)%nat -> In l out -> exists h, hom0 l deg = Ok h /\ b_dim h = length (b_bars h)) ->
  exists c, add_output_first rows out (length out) = Ok c /\ c_loc c = out /\
    length (c_cyc c) = rows /\ length (c_dim c) = rows /\ length (c_bars c) = rows /\
    forall deg, (deg < rows)%nat -> exists hs, length hs = length out /\
      (forall k dl, (k < length out)%nat -> hom0 (nth k out dl) deg = Ok (nth k hs empty_basis)) /\
      (forall h, In h hs -> b_dim h = length (b_bars h)) /\
      nth deg (c_cyc c) [] = cumulate 0 (map b_dim hs) ++ [0%nat] /\
      nth deg (c_dim c) 0%nat = list_sum (map b_dim hs) /\ nth deg (c_bars c) [] = concat (map b_bars hs).
Proof.
  intros Hne H. unfold add_output_first.
  destruct (Nat.ltb_spec 0 (length out)) as [L|L]; [|destruct out; [congruence|simpl in L; lia]].
  destruct (mapM_total (first_row out (length out)) (seq 0 rows)) as (rs & Ers).
  { intros deg Hdeg. apply in_seq in Hdeg. destruct (first_row_ok out deg) as (hs & _ & _ & _ & E); [intros l Hl; apply H; auto; lia|eauto]. }
  rewrite Ers. cbn [bind]. destruct (mapM_Ok _ _ _ Ers) as [Lrs Nrs]. rewrite seq_length in *.
  eexists. split; [reflexivity|]. cbn [c_loc c_cyc c_dim c_bars]. rewrite !map_length.
  do 4 (split; [auto|]). intros deg Hdeg.
  destruct (first_row_ok out deg) as (hs & H1 & H2 & H3 & E); [intros l Hl; apply H; auto|]. exists hs. do 3 (split; [auto|]).
  specialize (Nrs deg 0%nat ([], 0%nat, []) Hdeg). rewrite seq_nth in Nrs by auto. cbn [Nat.add] in Nrs. rewrite E in Nrs.
  injection Nrs as Er.
  rewrite !(nth_map _ rs deg ([], 0%nat, [])) by lia. rewrite <- Er. auto.
Qed.

Lemma add_output_first_nil rows nspx : add_output_first rows [] nspx = Ok (Column [] [] (repeat 0%nat rows) (repeat [] rows)).
Proof. reflexivity. Qed.

(** ** The page *)

Section Page.
Variables (argsort : list Z -> list nat) (rnd : Z -> Z) (Dist : list (list Z)) (max_r max_dim p : Z)
  (IN : list (list (list nat))) (n0 : nat) (nerve : list (list simplex)).
Hypothesis HI : mv_input argsort Dist max_r max_dim p IN n0 nerve.
Let m := Z.to_nat max_dim.
Let HC := mv_cover _ _ _ _ _ _ _ _ HI.
Let ok := local_ok rnd Dist max_r max_dim p.
Let lev n := level n0 nerve n.

Lemma p1 : 1 < p. Proof. destruct (mv_prime _ _ _ _ _ _ _ _ HI). lia. Qed.

Record page_ok (S : ss) : Prop := {
  po_p : s_p S = p; po_max_r : s_max_r S = max_r; po_rows : s_rows S = m; po_n0 : s_n0 S = n0;
  po_nerve : s_nerve S = nerve; po_IN : s_IN S = IN;
  po_ndiff : complex_differentials n0 nerve p = Ok (n0, s_ndiff S);
  po_cols : length (s_cols S) = Datatypes.S (length nerve);
  po_last : nth (length nerve) (s_cols S) no_column = Column [] [] (repeat 0%nat m) (repeat [] m);
  po_col : forall n, (n < length nerve)%nat -> add_output_first m (c_loc (nth n (s_cols S) no_column)) (length (lev n)) = Ok (nth n (s_cols S) no_column);
  po_count : forall n, (n < length nerve)%nat -> length (c_loc (nth n (s_cols S) no_column)) = length (lev n);
  po_loc : forall n k, (n < length nerve)%nat -> (k < length (lev n))%nat ->
    local_ph argsort rnd Dist max_r max_dim p (ins_of IN n k) = Ok (loc_of S n k) /\ exists R, ok (ins_of IN n k) (loc_of S n k) R
}.

Lemma ins_incr n k : increasing (ins_of IN n k).
Proof. apply (cov_incr _ _ _ _ HC). Qed.

Lemma ins_lt n k q : In q (ins_of IN n k) -> (q < length Dist)%nat.
Proof. apply (cov_lt _ _ _ _ HC). Qed.

Lemma loc_exists n k : exists l R, local_ph argsort rnd Dist max_r max_dim p (ins_of IN n k) = Ok l /\ ok (ins_of IN n k) l R.
Proof.
  apply (local_ph_ok argsort rnd Dist max_r max_dim p (mv_sorts _ _ _ _ _ _ _ _ HI) (mv_square _ _ _ _ _ _ _ _ HI)
    (mv_nonneg _ _ _ _ _ _ _ _ HI) (mv_max_r _ _ _ _ _ _ _ _ HI) (mv_max_dim _ _ _ _ _ _ _ _ HI) (mv_prime _ _ _ _ _ _ _ _ HI)); [apply ins_incr|].
  intros q. apply ins_lt.
Qed.

Lemma ok_hom ins l R deg : ok ins l R -> (deg <= m)%nat -> exists h, hom0 l deg = Ok h /\ b_dim h = length (b_bars h).
Proof.
  intros OK Hd. destruct (C23_aux rnd p max_r _ _ _ _ (mv_prime _ _ _ _ _ _ _ _ HI) (lo_valid _ _ _ _ _ _ _ _ OK) (lo_ph _ _ _ _ _ _ _ _ OK)) as (L & _ & _ & H).
  pose proof (lo_Ds _ _ _ _ _ _ _ _ OK) as LD. fold m in LD.
  exists (nth deg (ph_hom (l_out l)) empty_basis). unfold hom0. rewrite (nth_err_nth _ deg empty_basis) by lia. split; [reflexivity|].
  apply H. lia.
Qed.

Lemma spx_number_ok S n : s_n0 S = n0 -> s_nerve S = nerve -> (n <= length nerve)%nat -> spx_number S n = Ok (length (lev n)).
Proof.
  intros E1 E2 Hn. unfold spx_number, lev. destruct n as [|n].
  - rewrite E1. cbn [level]. rewrite map_length, seq_length. reflexivity.
  - rewrite E2. rewrite (nth_err_nth nerve n []) by lia. reflexivity.
Qed.

Lemma zero_page_total : exists S, zero_page argsort rnd Dist max_r max_dim p IN n0 nerve = Ok S /\ page_ok S.
Proof.
  unfold zero_page.
  destruct (differentials_ok n0 nerve p p1 (cov_dim _ _ _ _ HC)) as (nd & End & _); [apply (cov_simp _ _ _ _ HC)|].
  rewrite End. cbn [bind].
  match goal with |- context [mapM ?g (seq 0 (length nerve))] => set (f := g) end.
  assert (Hf : forall n, (n < length nerve)%nat -> exists c, f n = Ok c /\ length (c_loc c) = length (lev n) /\
     add_output_first m (c_loc c) (length (lev n)) = Ok c /\
     forall k, (k < length (lev n))%nat -> local_ph argsort rnd Dist max_r max_dim p (ins_of IN n k) = Ok (nth k (c_loc c) no_local) /\
       exists R, ok (ins_of IN n k) (nth k (c_loc c) no_local) R).
  { intros n Hn. unfold f. rewrite spx_number_ok by (auto; lia). cbn [bind].
    rewrite (nth_err_nth IN n []) by (rewrite (cov_len _ _ _ _ HC); lia). cbn [bind].
    assert (Hsz : length (nth n IN []) = length (lev n)) by (apply (cov_size _ _ _ _ HC); lia).
    rewrite <- Hsz. rewrite (take_err_pure _ _ []) by (intros i Hi; apply in_seq in Hi; lia). rewrite map_nth_seq. cbn [bind].
    destruct (mapM_total (local_ph argsort rnd Dist max_r max_dim p) (nth n IN [])) as (out & Eout).
    { intros x Hx. apply (In_nth _ _ []) in Hx. destruct Hx as (k & Hk & <-). destruct (loc_exists n k) as (l & R & E & _). exists l. exact E. }
    rewrite Eout. cbn [bind]. destruct (mapM_Ok _ _ _ Eout) as [Lo No].
    assert (Hk : forall k, (k < length (lev n))%nat -> local_ph argsort rnd Dist max_r max_dim p (ins_of IN n k) = Ok (nth k out no_local) /\ exists R, ok (ins_of IN n k) (nth k out no_local) R).
    { intros k Hk. destruct (loc_exists n k) as (l & R & E & OK). specialize (No k [] no_local). rewrite Hsz in No. specialize (No Hk).
      unfold ins_of in E at 1. rewrite No in E. injection E as E. split; [exact No|]. exists R. rewrite E. exact OK. }
    destruct out as [|l0 out'] eqn:Eo.
    - rewrite add_output_first_nil. eexists. split; [reflexivity|]. cbn [c_loc].
      cbn [length] in Lo. split; [auto|]. split; [reflexivity|]. intros k Hlt. lia.
    - rewrite <- Eo in *. destruct (add_output_first_ok m out) as (c & Ec & Hc & _).
      { rewrite Eo. discriminate. }
      { intros deg l Hdeg Hl. apply (In_nth _ _ no_local) in Hl. destruct Hl as (k & Hlt & <-). rewrite Lo, Hsz in Hlt.
        destruct (Hk k Hlt) as (_ & R & OK). apply (ok_hom _ _ R deg OK). lia. }
      fold m. rewrite <- Lo. rewrite Ec. exists c. rewrite Hc. split; [reflexivity|]. split; [reflexivity|]. split; [exact Ec|]. rewrite Lo, Hsz. exact Hk. }
  destruct (mapM_total f (seq 0 (length nerve))) as (cs & Ecs).
  { intros n Hn. apply in_seq in Hn. destruct (Hf n) as (c & E & _); [lia|eauto]. }
  rewrite Ecs. cbn [bind]. destruct (mapM_Ok _ _ _ Ecs) as [Lc Nc]. rewrite seq_length in *.
  eexists. split; [reflexivity|].
  assert (Hcol : forall n, (n < length nerve)%nat -> f n = Ok (nth n cs no_column)).
  { intros n Hn. specialize (Nc n 0%nat no_column Hn). rewrite seq_nth in Nc by auto. exact Nc. }
  constructor; cbn [s_p s_max_r s_rows s_n0 s_nerve s_IN s_ndiff s_cols]; auto.
  - rewrite app_length. simpl. lia.
  - rewrite app_nth2 by lia. rewrite Lc, Nat.sub_diag. reflexivity.
  - intros n Hn. rewrite app_nth1 by lia. destruct (Hf n Hn) as (c & E & H1 & H2 & H3). rewrite Hcol in E by auto. injection E as ->. auto.
  - intros n Hn. rewrite app_nth1 by lia. destruct (Hf n Hn) as (c & E & H1 & H2 & H3). rewrite Hcol in E by auto. injection E as ->. auto.
  - intros n k Hn Hk. unfold loc_of. cbn [s_cols]. rewrite app_nth1 by lia. destruct (Hf n Hn) as (c & E & H1 & H2 & H3). rewrite Hcol in E by auto. injection E as ->. auto.
Qed.

Lemma zero_page_ok S : zero_page argsort rnd Dist max_r max_dim p IN n0 nerve = Ok S -> page_ok S.
Proof. intros E. destruct zero_page_total as (S' & E' & H). rewrite E in E'. injection E' as ->. auto. Qed.

Section Access.
Variable S : ss.
Hypothesis PO : page_ok S.

Lemma the_local_ok n k : (n < length nerve)%nat -> (k < length (lev n))%nat -> the_local S n k = Ok (loc_of S n k).
Proof.
  intros Hn Hk. unfold the_local. rewrite (nth_err_nth (s_cols S) n no_column) by (rewrite (po_cols _ PO); lia). cbn [bind].
  apply nth_err_nth. rewrite (po_count _ PO) by auto. auto.
Qed.

Lemma the_IN_ok n k : (n <= length nerve)%nat -> (k < length (lev n))%nat -> the_IN S n k = Ok (ins_of IN n k).
Proof.
  intros Hn Hk. unfold the_IN. rewrite (po_IN _ PO). rewrite (nth_err_nth IN n []) by (rewrite (cov_len _ _ _ _ HC); lia). cbn [bind].
  apply nth_err_nth. rewrite (cov_size _ _ _ _ HC) by auto. auto.
Qed.

Lemma spx_ok n : (n <= length nerve)%nat -> spx_number S n = Ok (length (lev n)).
Proof. apply spx_number_ok; [apply (po_n0 _ PO)|apply (po_nerve _ PO)]. Qed.

(** The boundary matrices of the nerve. *)
Lemma ndiff_ok n : (n < length nerve)%nat -> let D := nth n (s_ndiff S) (Mat 0 []) in
  nth_err (s_ndiff S) n = Ok D /\ wf_mat D /\ nrows D = length (lev n) /\ ncols D = length (lev (Datatypes.S n)) /\
  (forall i j, (i < length (lev n))%nat -> (j < length (lev (Datatypes.S n)))%nat ->
    get D i j = (dsign n * bdc (nth i (lev n) []) (nth j (lev (Datatypes.S n)) [])) mod p).
Proof.
  intros Hn D. destruct (differentials_ok n0 nerve p p1 (cov_dim _ _ _ _ HC)) as (nd & End & Hl & H); [apply (cov_simp _ _ _ _ HC)|].
  rewrite (po_ndiff _ PO) in End. injection End as <-. split; [apply nth_err_nth; lia|]. apply (H n Hn).
Qed.

(** A nonzero entry is a face: the points of the larger simplex are points of the face. *)
Lemma ndiff_incl n i j : (n < length nerve)%nat -> (i < length (lev n))%nat -> (j < length (lev (Datatypes.S n)))%nat ->
  get (nth n (s_ndiff S) (Mat 0 [])) i j <> 0 -> incl (ins_of IN (Datatypes.S n) j) (ins_of IN n i).
Proof.
  intros Hn Hi Hj Hne q Hq. destruct (ndiff_ok n Hn) as (_ & _ & _ & _ & H). rewrite H in Hne by auto. clear H.
  destruct (face_or_not (nth j (lev (Datatypes.S n)) []) (nth i (lev n) [])) as [(k & Hk & E)|Hno].
  2:{ rewrite bdc_other in Hne by auto. rewrite Z.mul_0_r, Zmod_0_l in Hne. congruence. }
  apply (cov_meet _ _ _ _ HC); [lia|auto|]. intros v Hv. apply (cov_meet _ _ _ _ HC (Datatypes.S n) j q); [lia|auto|exact Hq|].
  fold (lev n) in Hv. rewrite E in Hv. apply facet_In in Hv; [tauto| |auto].
  destruct (cov_simp _ _ _ _ HC) as (Hwf & _). apply (Hwf (Datatypes.S n)). apply nth_In. auto.
Qed.
End Access.
End Page.
