(** * The Cech differential in terms of simplices of the cloud; C43 and C44 *)
From Verif Require Import Base ListX SortX Lin Basis_model PH_model Simp_model Spec_Simp Simp_lists Simp_diff Simp_props
  Spec_PH Spec_Rips Rips_bd Rips_chain LC_model Spec_LC LC_props SS_model Spec_SS SS_inv SS_page.
From Coq Require Import Sorted Permutation Znumtheory.
Local Open Scope Z_scope.

(** Sum of [f] over a list. *)
Definition lsum {A} (f : A -> Z) (l : list A) : Z := fold_right (fun a s => f a + s) 0 l.

Lemma Zsum_head n f : Zsum (S n) f = f 0%nat + Zsum n (fun i => f (S i)).
Proof. induction n as [|n IH]; [simpl; lia|]. change (Zsum (S (S n)) f) with (Zsum (S n) f + f (S n)). rewrite IH. cbn [Zsum]. lia. Qed.

Lemma lsum_combine_seq f v : forall s, lsum f (combine (seq s (length v)) v) = Zsum (length v) (fun i => f ((s + i)%nat, nth i v 0)).
Proof.
  induction v as [|x v IH]; intros s; [reflexivity|]. cbn [length seq combine]. unfold lsum. cbn [fold_right]. fold (lsum f (combine (seq (S s) (length v)) v)).
  rewrite IH. rewrite Zsum_head. rewrite Nat.add_0_r. cbn [nth]. f_equal. apply Zsum_ext. intros i _. f_equal. f_equal. lia.
Qed.

Lemma lsum_filter {A} (f : A -> Z) (h : A -> bool) l : (forall a, In a l -> h a = false -> f a = 0) -> lsum f (filter h l) = lsum f l.
Proof.
  induction l as [|x l IH]; intros H; [reflexivity|]. cbn [filter]. destruct (h x) eqn:E; unfold lsum in *; cbn [fold_right].
  - rewrite IH; auto. intros a Ha. apply H. simpl; auto.
  - rewrite IH by (intros a Ha; apply H; simpl; auto). rewrite (H x) by (simpl; auto). lia.
Qed.

Lemma lsum_nonzero f v : (forall i, (i < length v)%nat -> f (i, 0) = 0) -> lsum f (nonzero_entries v) = Zsum (length v) (fun i => f (i, nth i v 0)).
Proof.
  intros H. unfold nonzero_entries. rewrite lsum_filter.
  - rewrite lsum_combine_seq. reflexivity.
  - intros [i c] Hin Hc. cbn [snd] in Hc. assert (c = 0) by (destruct (Z.eqb_spec c 0); auto; discriminate). subst c. apply H.
    apply in_combine_l in Hin. apply in_seq in Hin. lia.
Qed.

Lemma nonzero_In v i c : In (i, c) (nonzero_entries v) <-> (i < length v)%nat /\ c = nth i v 0 /\ c <> 0.
Proof.
  unfold nonzero_entries. rewrite filter_In. cbn [snd]. split.
  - intros [H1 H2]. apply negb_true_iff, Z.eqb_neq in H2. apply (In_nth _ _ (0%nat, 0)) in H1. destruct H1 as (j & Hj & E).
    rewrite combine_length, seq_length, Nat.min_id in Hj. rewrite combine_nth in E by apply seq_length. rewrite seq_nth in E by auto.
    injection E as <- <-. auto.
  - intros (H1 & -> & H2). split; [|apply negb_true_iff, Z.eqb_neq; auto].
    replace (i, nth i v 0) with (nth i (combine (seq 0 (length v)) v) (0%nat, 0)).
    + apply nth_In. rewrite combine_length, seq_length, Nat.min_id. auto.
    + rewrite combine_nth by apply seq_length. rewrite seq_nth by auto. reflexivity.
Qed.

Lemma vget_mvmul A v i : (i < nrows A)%nat -> nth i (mvmul A v) 0 = Zsum (ncols A) (fun k => get A i k * vget v k).
Proof. intros H. unfold mvmul. rewrite nth_map_seq by auto. reflexivity. Qed.

Lemma mvmul_length A v : length (mvmul A v) = nrows A.
Proof. unfold mvmul. rewrite map_length, seq_length. reflexivity. Qed.

Lemma vget_vmod v p i : vget (vmod v p) i = vget v i mod p.
Proof.
  unfold vmod, vget, vec. revert i. induction v as [|x v IH]; intros [|i]; cbn [map nth]; rewrite ?Zmod_0_l; auto.
Qed.

(** [unit_col] *)
Lemma unit_col_ok n i x : (i < n)%nat -> exists c, unit_col n i x = Ok c /\ length c = n /\ forall j, nth j c 0 = if Nat.eqb j i then x else 0.
Proof.
  intros H. unfold unit_col. replace (Nat.ltb i n) with true by (symmetry; apply Nat.ltb_lt; auto). eexists. split; [reflexivity|].
  unfold vzero. rewrite list_set_length, repeat_length. split; [auto|]. intros j. rewrite nth_list_set, repeat_length.
  replace (Nat.ltb i n) with true by (symmetry; apply Nat.ltb_lt; auto). rewrite andb_true_r.
  destruct (Nat.eqb j i); auto. destruct (Nat.lt_ge_cases j n); [apply nth_repeat|apply nth_overflow; rewrite repeat_length; auto].
Qed.

Lemma intersect_all vs vf n : increasing vs -> increasing vf -> length vs = n -> length vf = n ->
  length (intersect1d vs vf) = n <-> vf = vs.
Proof.
  intros H1 H2 L1 L2. unfold intersect1d. rewrite nunique_id by auto. split.
  - intros H. rewrite <- L1 in H. pose proof (length_filter_all _ _ H) as Ha.
    assert (Hin : incl vs vf) by (intros x Hx; apply memn_In; apply Ha; auto).
    apply increasing_ext; auto. intros x. split; [|apply Hin].
    apply (NoDup_length_incl (increasing_NoDup vs H1)); [lia|auto].
  - intros ->. rewrite forallb_filter_id; auto. apply forallb_forall. intros x Hx. apply memn_In. auto.
Qed.

Definition seqb (a b : list nat) : bool := if list_eq_dec Nat.eq_dec a b then true else false.

Lemma face_position_ok deg vs fins Cd : increasing fins -> increasing vs -> length vs = S deg ->
  (forall s, In s Cd -> length s = S deg /\ increasing s /\ forall v, In v s -> (v < length fins)%nat) ->
  face_position deg vs fins Cd = Ok (find_idx (fun s => seqb (glob fins s) vs) Cd).
Proof.
  intros Hf Hv Lv. induction Cd as [|s Cd IH]; intros H; cbn [face_position find_idx]; [reflexivity|].
  destruct (H s) as (Ls & Hs & Hlt); [simpl; auto|].
  rewrite (take_err_pure fins s 0%nat) by auto. cbn [bind]. fold (glob fins s). rewrite IH by (intros t Ht; apply H; simpl; auto). cbn [bind].
  assert (Hiff := intersect_all vs (glob fins s) (S deg) Hv (glob_increasing fins Hf s Hs Hlt) Lv). rewrite glob_length in Hiff. specialize (Hiff Ls).
  replace (seqb (glob fins s) vs) with (Nat.eqb (length (intersect1d vs (glob fins s))) (S deg)).
  - destruct (Nat.eqb _ _); reflexivity.
  - unfold seqb. destruct (Nat.eqb_spec (length (intersect1d vs (glob fins s))) (S deg)) as [E|E];
      destruct (list_eq_dec Nat.eq_dec (glob fins s) vs) as [E'|E']; tauto.
Qed.

Section Cech.
Variables (argsort : list Z -> list nat) (rnd : Z -> Z) (Dist : list (list Z)) (max_r max_dim p : Z)
  (IN : list (list (list nat))) (n0 : nat) (nerve : list (list simplex)).
Hypothesis HI : mv_input argsort Dist max_r max_dim p IN n0 nerve.
Variable S : ss.
Hypothesis PO : page_ok argsort rnd Dist max_r max_dim p IN n0 nerve S.
Let m := Z.to_nat max_dim.
Let HC := mv_cover _ _ _ _ _ _ _ _ HI.
Let ok := local_ok rnd Dist max_r max_dim p.
Let lev n := level n0 nerve n.
Let ins := ins_of IN.
Let loc := loc_of S.
(** The simplices of a local complex. *)
Definition G (n k d : nat) : list (list nat) := gsim (ins n k) (loc n k) d.
(** Entries of the boundary matrix of the nerve. *)
Definition Dn (n i j : nat) : Z := get (nth n (s_ndiff S) (Mat 0 [])) i j.

Lemma Hp1 : 1 < p. Proof. destruct (mv_prime _ _ _ _ _ _ _ _ HI). lia. Qed.

Section Facts.
Variables (n k : nat).
Hypothesis Hn : (n < length nerve)%nat.
Hypothesis Hk : (k < length (lev n))%nat.

Lemma loc_ok : exists R, ok (ins n k) (loc n k) R.
Proof. apply (po_loc _ _ _ _ _ _ _ _ _ _ PO n k Hn Hk). Qed.

Lemma G_NoDup d : NoDup (G n k d).
Proof. destruct loc_ok as [R OK]. eapply gsim_NoDup; [apply (ins_incr _ _ _ _ _ _ _ _ HI)|exact OK]. Qed.

Lemma G_In d T : (d <= m)%nat -> In T (G n k d) <-> clique (length Dist) (near Dist max_r) d T /\ incl T (ins n k).
Proof.
  intros Hd. destruct loc_ok as [R OK]. eapply gsim_In; [apply (mv_nonneg _ _ _ _ _ _ _ _ HI)|apply (mv_max_dim _ _ _ _ _ _ _ _ HI)|apply (ins_incr _ _ _ _ _ _ _ _ HI)| |exact OK|exact Hd].
  intros q. apply (ins_lt _ _ _ _ _ _ _ _ HI).
Qed.

Lemma G_length d : length (G n k d) = length (level (length (ins n k)) (l_Cs (loc n k)) d).
Proof. apply map_length. Qed.

Lemma G_size d : (d <= m)%nat -> sub_size (loc n k) d = Ok (length (G n k d)).
Proof. intros Hd. destruct loc_ok as [R OK]. eapply sub_size_ok; [apply (mv_nonneg _ _ _ _ _ _ _ _ HI)| |exact OK|exact Hd]. intros q. apply (ins_lt _ _ _ _ _ _ _ _ HI). Qed.

Lemma G_diff d i j : (d < m)%nat -> (i < length (G n k d))%nat -> (j < length (G n k (Datatypes.S d)))%nat ->
  get (nth d (l_Ds (loc n k)) (Mat 0 [])) i j = (dsign d * bdc (nth i (G n k d) []) (nth j (G n k (Datatypes.S d)) [])) mod p.
Proof. intros Hd Hi Hj. destruct loc_ok as [R OK]. eapply gsim_diff; eauto. apply (ins_incr _ _ _ _ _ _ _ _ HI). Qed.

Lemma G_facet d T i : (d < m)%nat -> In T (G n k (Datatypes.S d)) -> (i <= Datatypes.S d)%nat -> In (facet i T) (G n k d).
Proof. intros Hd HT Hi. destruct loc_ok as [R OK]. eapply gsim_facets; eauto. Qed.

Lemma loc_n0 : l_n0 (loc n k) = length (ins n k).
Proof. destruct loc_ok as [R OK]. apply OK. Qed.
End Facts.

(** The matrix has the entry [x] where the two simplices are the same simplex of the cloud. *)
Lemma local_cech_ok n deg spx face coeff : (Datatypes.S n < length nerve)%nat ->
  (spx < length (lev (Datatypes.S n)))%nat -> (face < length (lev n))%nat -> (deg <= m)%nat ->
  incl (ins (Datatypes.S n) spx) (ins n face) ->
  exists M, local_cech_matrix S n deg spx face coeff = Ok M /\ nrows M = length (G n face deg) /\
    ncols M = length (G (Datatypes.S n) spx deg) /\
    forall i j, (i < length (G n face deg))%nat -> (j < length (G (Datatypes.S n) spx deg))%nat ->
      get M i j = if list_eq_dec Nat.eq_dec (nth j (G (Datatypes.S n) spx deg) []) (nth i (G n face deg) [])
                  then (coeff * (-1) ^ Z.of_nat deg) mod p else 0.
Proof.
  intros Hn Hs Hf Hd Hincl. unfold local_cech_matrix. rewrite (po_p _ _ _ _ _ _ _ _ _ _ PO). set (x := _ mod p).
  rewrite (the_local_ok _ _ _ _ _ _ _ _ _ _ PO n face) by (auto; lia). cbn [bind].
  rewrite (the_local_ok _ _ _ _ _ _ _ _ _ _ PO (1 + n) spx) by (auto; lia). cbn [bind].
  change (1 + n)%nat with (Datatypes.S n). fold (loc n face). fold (loc (Datatypes.S n) spx).
  assert (Hn' : (n < length nerve)%nat) by lia.
  pose proof (G_length n face deg) as LF. pose proof (G_length (Datatypes.S n) spx deg) as LS.
  pose proof (ins_incr _ _ _ _ _ _ _ _ HI n face) as IF. fold (ins n face) in IF.
  pose proof (ins_incr _ _ _ _ _ _ _ _ HI (Datatypes.S n) spx) as IS. fold (ins (Datatypes.S n) spx) in IS.
  destruct (loc_ok n face Hn' Hf) as [RF OKF]. destruct (loc_ok (Datatypes.S n) spx Hn Hs) as [RS OKS].
  destruct deg as [|d].
  - rewrite !loc_n0 by auto. set (nf := length (ins n face)). set (ns := length (ins (Datatypes.S n) spx)).
    cbn [level] in LF, LS. rewrite map_length, seq_length in LF, LS.
    set (pos := fun pt => match find_idx (Nat.eqb (nth pt (ins (Datatypes.S n) spx) 0%nat)) (ins n face) with Some i => i | None => 0%nat end).
    assert (Hpos : forall pt, (pt < ns)%nat -> (pos pt < nf)%nat /\ nth (pos pt) (ins n face) 0%nat = nth pt (ins (Datatypes.S n) spx) 0%nat).
    { intros pt Hpt. destruct (find_idx_in (nth pt (ins (Datatypes.S n) spx) 0%nat) (ins n face)) as (i & E & Hl & En).
      - apply Hincl. apply nth_In. auto.
      - unfold pos. rewrite E. auto. }
    rewrite (mapM_pure _ (fun pt => list_set (vzero nf) (pos pt) x)).
    2:{ intros pt Hpt. apply in_seq in Hpt.
        rewrite (the_IN_ok _ _ _ _ _ _ _ _ _ HI S PO n face) by (auto; lia). cbn [bind].
        rewrite (the_IN_ok _ _ _ _ _ _ _ _ _ HI S PO (Datatypes.S n) spx) by (auto; lia). cbn [bind].
        fold (ins n face). fold (ins (Datatypes.S n) spx). rewrite (nth_err_nth _ pt 0%nat) by lia. cbn [bind].
        destruct (Hpos pt) as [H1 _]; [lia|].
        unfold point_column. fold nf. destruct (Nat.eqb_spec nf 0) as [E|E]; [lia|]. fold (pos pt).
        unfold unit_col. replace (Nat.ltb (pos pt) nf) with true by (symmetry; apply Nat.ltb_lt; auto). reflexivity. }
    cbn [bind]. eexists. split; [reflexivity|]. cbn [nrows]. split; [auto|]. unfold ncols. cbn [cols]. rewrite map_length, seq_length.
    split; [auto|]. intros i j Hi Hj. rewrite LF in Hi. rewrite LS in Hj.
    unfold get, col, vget. cbn [cols].
    rewrite nth_map_seq by auto.
    destruct (Hpos j Hj) as [H1 H2]. destruct (unit_col_ok nf (pos j) x H1) as (c & Ec & _ & Hc).
    unfold unit_col in Ec. replace (Nat.ltb (pos j) nf) with true in Ec by (symmetry; apply Nat.ltb_lt; auto). injection Ec as <-.
    rewrite Hc. unfold G, gsim. cbn [level]. rewrite !map_map. fold nf ns.
    rewrite (nth_map_seq _ ns j []) by auto. rewrite (nth_map_seq _ nf i []) by auto. unfold glob. cbn [map].
    destruct (list_eq_dec Nat.eq_dec _ _) as [E|E]; destruct (Nat.eqb_spec i (pos j)) as [E'|E']; auto; exfalso.
    + apply E'. injection E as E. rewrite <- H2 in E. symmetry. apply (increasing_nth_inj (ins n face) _ _ IF H1 Hi E).
    + apply E. subst i. rewrite H2. reflexivity.
  - assert (LCf : length (l_Cs (loc n face)) = m) by apply OKF. assert (LCs : length (l_Cs (loc (Datatypes.S n) spx)) = m) by apply OKS.
    rewrite (nth_err_nth _ d []) by lia. cbn [bind]. rewrite (nth_err_nth _ d []) by lia. cbn [bind].
    set (Cf := nth d (l_Cs (loc n face)) []) in *. set (Cd := nth d (l_Cs (loc (Datatypes.S n) spx)) []) in *.
    change (level _ (l_Cs (loc n face)) (Datatypes.S d)) with Cf in LF.
    change (level _ (l_Cs (loc (Datatypes.S n) spx)) (Datatypes.S d)) with Cd in LS.
    assert (WF : forall s, In s Cf -> length s = Datatypes.S (Datatypes.S d) /\ increasing s /\ forall v, In v s -> (v < length (ins n face))%nat).
    { intros s Hin. destruct (lo_simp _ _ _ _ _ _ _ _ OKF) as (Hwf & _). apply (Hwf (Datatypes.S d) s Hin). }
    assert (WS : forall s, In s Cd -> length s = Datatypes.S (Datatypes.S d) /\ increasing s /\ forall v, In v s -> (v < length (ins (Datatypes.S n) spx))%nat).
    { intros s Hin. destruct (lo_simp _ _ _ _ _ _ _ _ OKS) as (Hwf & _). apply (Hwf (Datatypes.S d) s Hin). }
    set (colf := fun s => match find_idx (fun t => seqb (glob (ins n face) t) (glob (ins (Datatypes.S n) spx) s)) Cf with
                          | Some i => list_set (vzero (length Cf)) i x | None => vzero (length Cf) end).
    rewrite (mapM_pure _ colf).
    2:{ intros s Hin. rewrite (the_IN_ok _ _ _ _ _ _ _ _ _ HI S PO (Datatypes.S n) spx) by (auto; lia). cbn [bind].
        rewrite (the_IN_ok _ _ _ _ _ _ _ _ _ HI S PO n face) by (auto; lia). cbn [bind].
        fold (ins n face). fold (ins (Datatypes.S n) spx). destruct (WS s Hin) as (W1 & W2 & W3).
        unfold simplex_column. rewrite (take_err_pure _ s 0%nat) by auto. cbn [bind]. fold (glob (ins (Datatypes.S n) spx) s).
        rewrite face_position_ok; auto; [|apply glob_increasing; auto|rewrite glob_length; auto]. cbn [bind]. unfold colf.
        destruct (find_idx _ Cf) as [i|] eqn:E; [|reflexivity]. unfold unit_col.
        destruct (find_idx_Some _ _ _ [] E) as (H1 & _). replace (Nat.ltb i (length Cf)) with true by (symmetry; apply Nat.ltb_lt; auto). reflexivity. }
    cbn [bind]. eexists. split; [reflexivity|]. cbn [nrows]. split; [auto|]. unfold ncols. cbn [cols]. rewrite map_length. split; [auto|].
    intros i j Hi Hj. unfold get, col, vget. cbn [cols]. rewrite (@nth_map simplex vec colf Cd j []) by lia.
    unfold G. rewrite (gsim_nth _ _ (Datatypes.S d) i) by auto. rewrite (gsim_nth _ _ (Datatypes.S d) j) by auto.
    change (level _ (l_Cs (loc n face)) (Datatypes.S d)) with Cf. change (level _ (l_Cs (loc (Datatypes.S n) spx)) (Datatypes.S d)) with Cd.
    rewrite LF in Hi. rewrite LS in Hj. set (s := nth j Cd []). unfold colf.
    destruct (find_idx _ Cf) as [i0|] eqn:E.
    + destruct (find_idx_Some _ _ _ [] E) as (H1 & H2 & _). unfold seqb in H2.
      destruct (list_eq_dec Nat.eq_dec (glob (ins n face) (nth i0 Cf [])) (glob (ins (Datatypes.S n) spx) s)) as [E0|]; [|discriminate].
      rewrite nth_list_set. unfold vzero. rewrite repeat_length. replace (Nat.ltb i0 (length Cf)) with true by (symmetry; apply Nat.ltb_lt; auto).
      rewrite andb_true_r, nth_repeat.
      destruct (list_eq_dec Nat.eq_dec _ _) as [E1|E1]; destruct (Nat.eqb_spec i i0) as [E'|E']; auto; exfalso.
      * apply E'. destruct (lo_simp _ _ _ _ _ _ _ _ OKF) as (_ & Hnd & _). specialize (Hnd (Datatypes.S d)). change (NoDup Cf) in Hnd.
        apply (proj1 (NoDup_nth Cf []) Hnd); auto. apply (glob_inj (ins n face) IF); [apply WF; apply nth_In; auto|apply WF; apply nth_In; auto|]. congruence.
      * apply E1. subst i. auto.
    + unfold vzero. rewrite nth_repeat. destruct (list_eq_dec Nat.eq_dec _ _) as [E1|E1]; auto. exfalso.
      assert (F := proj1 (find_idx_None _ _) E (nth i Cf []) ltac:(apply nth_In; auto)). cbv beta in F. unfold seqb in F.
      destruct (list_eq_dec Nat.eq_dec _ _); congruence.
Qed.

(** Sizes of the local complexes of a column in degree [deg]. *)
Definition widths (n deg : nat) : list nat := map (fun k => length (G n k deg)) (seq 0 (length (lev n))).

Lemma widths_length n deg : length (widths n deg) = length (lev n).
Proof. unfold widths. rewrite map_length, seq_length. reflexivity. Qed.

Lemma widths_nth n deg k : (k < length (lev n))%nat -> nth k (widths n deg) 0%nat = length (G n k deg).
Proof. intros H. unfold widths. rewrite nth_map_seq by auto. reflexivity. Qed.

(** Contribution of the coface [s] with coefficient [c]. *)
Definition term (start : chains) (n deg k g j : nat) (sc : nat * Z) : Z :=
  (snd sc * (-1) ^ Z.of_nat deg) mod p * on_simplices (G (Datatypes.S n) (fst sc) deg) (value start (fst sc) g) (nth j (G n k deg) []).

Section Local.
Variables (n deg k : nat) (start : chains).
Hypothesis Hn : (Datatypes.S n < length nerve)%nat.
Hypothesis Hk : (k < length (lev n))%nat.
Hypothesis Hd : (deg <= m)%nat.
Hypothesis Hg : good (widths (Datatypes.S n) deg) start.
Let w := length (G n k deg).

Lemma start_good s : (s < length (lev (Datatypes.S n)))%nat ->
  nth_err start s = Ok (nth s start (LEntry [] LNil)) /\ good_entry (length (G (Datatypes.S n) s deg)) (nth s start (LEntry [] LNil)).
Proof.
  intros Hs. pose proof (good_length _ _ Hg) as L. rewrite widths_length in L. split; [apply nth_err_nth; lia|].
  rewrite <- widths_nth by auto. apply good_nth; auto. rewrite widths_length. auto.
Qed.

Lemma cech_coface_ok ref acc s c : (s < length (lev (Datatypes.S n)))%nat -> incl (ins (Datatypes.S n) s) (ins n k) ->
  increasing ref -> incl (le_ref (nth s start (LEntry [] LNil))) ref -> length acc = length ref -> Forall (fun r => length r = w) acc ->
  exists acc', cech_coface S start n deg k ref w acc (s, c) = Ok acc' /\ length acc' = length ref /\ Forall (fun r => length r = w) acc' /\
    forall g j, (j < w)%nat -> row_at ref acc' g j = row_at ref acc g j + term start n deg k g j (s, c).
Proof.
  intros Hs Hincl Hr Hri La Fa. destruct (start_good s Hs) as (E & Hge). unfold cech_coface. cbn [fst snd]. rewrite E. cbn [bind].
  unfold term, value. cbn [fst snd]. set (e := nth s start (LEntry [] LNil)) in *. destruct Hge as [He Hc].
  destruct (Nat.ltb_spec 0 (length (le_ref e))) as [L|L].
  - destruct (local_cech_ok n deg s k c Hn Hs Hk Hd Hincl) as (M & EM & RM & CM & HM). rewrite EM. cbn [bind].
    destruct (le_coord e) as [|w' rows] eqn:Ec; [rewrite Hc in L; simpl in L; lia|]. destruct Hc as (-> & Lr & Fr).
    rewrite CM, Nat.eqb_refl. unfold isin_add. rewrite Nat.eqb_refl. rewrite filter_count by auto. rewrite map_length, Lr, Nat.eqb_refl. cbn [andb].
    eexists. split; [reflexivity|].
    destruct (masked_add_ok w ref Hr (le_ref e) (map (mvmul M) rows) acc He Hri) as (H1 & H2 & H3); auto.
    { rewrite map_length. auto. }
    { apply Forall_forall. intros r Hin. apply in_map_iff in Hin. destruct Hin as (r0 & <- & _). rewrite mvmul_length. auto. }
    split; [auto|]. split; [auto|]. intros g j Hj. rewrite H3. f_equal. unfold row_at.
    unfold on_simplices. rewrite <- Zsum_scale. 
    destruct (find_idx (Nat.eqb g) (le_ref e)) as [i|] eqn:Ei.
    + destruct (find_idx_Some _ _ _ 0%nat Ei) as (Hi & _).
      rewrite (nth_map (mvmul M) rows i []) by (unfold vec in *; lia). rewrite vget_mvmul by lia. rewrite CM. apply Zsum_ext. intros j' Hj'.
      rewrite HM by auto. rewrite at_entry_row. unfold row_at. rewrite Ei, Ec. cbn [lrows]. unfold vget.
      destruct (list_eq_dec Nat.eq_dec _ _); ring.
    + symmetry. apply Zsum_0. intros j' _. rewrite at_entry_row. unfold row_at. rewrite Ei. destruct (list_eq_dec Nat.eq_dec _ _); ring.
  - exists acc. do 3 (split; [auto|]). intros g j Hj.
    match goal with |- context [on_simplices ?a ?b ?c] => assert (Z0 : on_simplices a b c = 0) end.
    { apply Zsum_0. intros i _. rewrite at_entry_row. unfold row_at. destruct (le_ref e); [|simpl in L; lia]. cbn. destruct (list_eq_dec Nat.eq_dec _ _); auto. }
    rewrite Z0. ring.
Qed.

Lemma coface_fold ref cofaces : increasing ref ->
  (forall s c, In (s, c) cofaces -> (s < length (lev (Datatypes.S n)))%nat /\ incl (ins (Datatypes.S n) s) (ins n k) /\
     incl (le_ref (nth s start (LEntry [] LNil))) ref) ->
  forall acc, length acc = length ref -> Forall (fun r => length r = w) acc ->
  exists acc', foldM (cech_coface S start n deg k ref w) cofaces acc = Ok acc' /\ length acc' = length ref /\ Forall (fun r => length r = w) acc' /\
    forall g j, (j < w)%nat -> row_at ref acc' g j = row_at ref acc g j + lsum (term start n deg k g j) cofaces.
Proof.
  intros Hr. induction cofaces as [|[s c] l IH]; intros H acc La Fa; cbn [foldM].
  - exists acc. do 3 (split; [auto|]). intros g j Hj. unfold lsum. simpl. lia.
  - destruct (H s c) as (H1 & H2 & H3); [simpl; auto|].
    destruct (cech_coface_ok ref acc s c H1 H2 Hr H3 La Fa) as (acc1 & E1 & L1 & F1 & V1). rewrite E1. cbn [bind].
    destruct (IH (fun s' c' Hin => H s' c' (or_intror Hin)) acc1 L1 F1) as (acc2 & E2 & L2 & F2 & V2).
    exists acc2. do 3 (split; [auto|]). intros g j Hj. rewrite V2, V1 by auto. unfold lsum. cbn [fold_right]. ring.
Qed.

Lemma row_at_vmod ref rows g j : row_at ref (map (fun r => vmod r p) rows) g j = row_at ref rows g j mod p.
Proof.
  unfold row_at. destruct (find_idx _ ref) as [i|]; [|rewrite Zmod_0_l; reflexivity].
  destruct (Nat.lt_ge_cases i (length rows)) as [H|H].
  - rewrite (nth_map (fun r => vmod r p) rows i []) by auto. apply vget_vmod.
  - rewrite (nth_overflow (map _ rows)) by (rewrite map_length; auto). rewrite (nth_overflow rows) by auto. destruct j; reflexivity.
Qed.

(** The image of the chains at the simplex [k], as a sum over the simplices of the next dimension. *)
Lemma cech_diff_local_ok : (exists s, (s < length (lev (Datatypes.S n)))%nat /\ Dn n k s <> 0) ->
  exists ref coord, cech_diff_local S start n deg k = Ok (ref, coord) /\ good_entry w (LEntry ref coord) /\
    (forall g, In g ref <-> exists s, (s < length (lev (Datatypes.S n)))%nat /\ Dn n k s <> 0 /\ In g (le_ref (nth s start (LEntry [] LNil)))) /\
    (coord = LNil <-> ref = []) /\
    forall g j, (j < w)%nat -> at_entry (LEntry ref coord) g j =
      Zsum (length (lev (Datatypes.S n))) (fun s => term start n deg k g j (s, Dn n k s)) mod p.
Proof.
  intros (s0 & Hs0 & Hne0). unfold cech_diff_local.
  destruct (ndiff_ok _ _ _ _ _ _ _ _ _ HI S PO n ltac:(lia)) as (ED & WD & RD & CD & _). fold (lev n) (lev (Datatypes.S n)) in *.
  rewrite ED. cbn [bind]. set (D := nth n (s_ndiff S) (Mat 0 [])) in *.
  unfold row_err. rewrite RD. replace (Nat.ltb k (length (lev n))) with true by (symmetry; apply Nat.ltb_lt; auto). cbn [bind].
  set (row := map (fun c => vget c k) (cols D)).
  assert (Lrow : length row = length (lev (Datatypes.S n))) by (unfold row; rewrite map_length; auto).
  assert (Nrow : forall s, (s < length (lev (Datatypes.S n)))%nat -> nth s row 0 = Dn n k s).
  { intros s Hs. unfold row, Dn. fold D. rewrite (nth_map (fun c => vget c k) (cols D) s []) by (unfold ncols, vec in *; lia). reflexivity. }
  set (cof := nonzero_entries row).
  assert (Hcof : forall s c, In (s, c) cof <-> (s < length (lev (Datatypes.S n)))%nat /\ c = Dn n k s /\ c <> 0).
  { intros s c. unfold cof. rewrite nonzero_In, Lrow. split; intros (H1 & H2 & H3); rewrite Nrow in * by auto; auto. }
  destruct (Nat.eqb_spec (length cof) 0) as [E0|E0].
  { exfalso. assert (In (s0, Dn n k s0) cof) by (apply Hcof; auto). destruct cof; [auto|discriminate]. }
  rewrite (mapM_pure _ (fun jc => nth (fst jc) start (LEntry [] LNil))).
  2:{ intros [s c] Hin. apply Hcof in Hin. apply start_good. tauto. }
  cbn [bind]. set (ref := nunique _).
  assert (Hr : increasing ref) by apply nunique_sorted.
  assert (Href : forall g, In g ref <-> exists s, (s < length (lev (Datatypes.S n)))%nat /\ Dn n k s <> 0 /\ In g (le_ref (nth s start (LEntry [] LNil)))).
  { intros g. unfold ref. rewrite nunique_In, in_concat. split.
    - intros (x & Hx & Hgx). apply in_map_iff in Hx. destruct Hx as (e & <- & He). apply in_map_iff in He. destruct He as ([s c] & <- & Hin).
      apply Hcof in Hin. destruct Hin as (H1 & -> & H2). exists s. auto.
    - intros (s & H1 & H2 & H3). eexists. split; [|exact H3]. apply in_map. apply in_map_iff. exists (s, Dn n k s). split; auto. apply Hcof. auto. }
  assert (Hsum : forall g j, (j < w)%nat -> lsum (term start n deg k g j) cof = Zsum (length (lev (Datatypes.S n))) (fun s => term start n deg k g j (s, Dn n k s))).
  { intros g j Hj. unfold cof. rewrite lsum_nonzero.
    - rewrite Lrow. apply Zsum_ext. intros s Hs. rewrite Nrow by auto. reflexivity.
    - intros s Hs. unfold term. cbn [fst snd]. reflexivity. }
  destruct (Nat.eqb_spec (length ref) 0) as [E1|E1].
  - apply length_zero_iff_nil in E1. exists [], LNil. split; [reflexivity|]. split; [split; [constructor|reflexivity]|].
    split; [intros g; rewrite <- (Href g), E1; reflexivity|]. split; [tauto|]. intros g j Hj. rewrite <- Hsum by auto. symmetry.
    replace (lsum _ cof) with 0; [apply Zmod_0_l|]. symmetry. assert (Ht : forall sc, In sc cof -> term start n deg k g j sc = 0).
    { intros [s c] Hin. apply Hcof in Hin. destruct Hin as (H1 & H2 & H3). unfold term. cbn [fst snd]. subst c.
      replace (on_simplices _ _ _) with 0; [ring|]. symmetry. apply Zsum_0. intros i _. unfold value. rewrite at_entry_row. unfold row_at.
      rewrite find_idx_notin; [destruct (list_eq_dec Nat.eq_dec _ _); auto|]. intros Hin. assert (In g ref) by (apply Href; eauto). rewrite E1 in H. auto. }
    clear - Ht. induction cof as [|a l IH]; [reflexivity|]. unfold lsum. cbn [fold_right]. fold (lsum (term start n deg k g j) l).
    rewrite Ht by (simpl; auto). rewrite IH; auto. intros; apply Ht; simpl; auto.
  - rewrite (the_local_ok _ _ _ _ _ _ _ _ _ _ PO n k) by (auto; lia). cbn [bind]. fold (loc n k). rewrite (G_size n k) by (auto; lia). cbn [bind]. fold w.
    destruct (coface_fold ref cof Hr) with (acc := repeat (vzero w) (length ref)) as (rows & Er & Lr & Fr & Vr).
    { intros s c Hin. apply Hcof in Hin. destruct Hin as (H1 & -> & H2). split; [auto|]. split.
      - apply (ndiff_incl _ _ _ _ _ _ _ _ _ HI S PO); auto. lia.
      - intros g Hgin. apply Href. eauto. }
    { apply repeat_length. }
    { apply Forall_forall. intros r Hin. apply repeat_spec in Hin. subst r. unfold vzero. apply repeat_length. }
    rewrite Er. cbn [bind]. rewrite (po_p _ _ _ _ _ _ _ _ _ _ PO). eexists _, _. split; [reflexivity|]. split; [|split; [exact Href|split]].
    + split; [exact Hr|]. cbn [le_coord le_ref]. split; [auto|]. split; [rewrite map_length; auto|].
      apply Forall_forall. intros r Hin. apply in_map_iff in Hin. destruct Hin as (r0 & <- & Hin). rewrite Forall_forall in Fr. specialize (Fr r0 Hin).
      unfold vmod. rewrite map_length. auto.
    + split; [discriminate|]. intros E. rewrite E in E1. simpl in E1. lia.
    + intros g j Hj. rewrite at_entry_row. cbn [le_ref le_coord lrows]. rewrite row_at_vmod. rewrite Vr by auto. rewrite row_at_zero by auto.
      rewrite Z.add_0_l, Hsum by auto. reflexivity.
Qed.
End Local.

(** Folding [add_entry] over all positions. *)
Lemma fold_add_entry (f : nat -> res (list nat * lcoord)) ws (P : nat -> list nat -> lcoord -> Prop) :
  (forall k, (k < length ws)%nat -> exists ref coord, f k = Ok (ref, coord) /\ good_entry (nth k ws 0%nat) (LEntry ref coord) /\
     (coord = LNil <-> ref = []) /\ P k ref coord) ->
  exists c, foldM (fun c k => '(ref, coord) <- f k ;; add_entry c k ref coord) (seq 0 (length ws)) (empty_chains (length ws)) = Ok c /\
    good ws c /\ forall k, (k < length ws)%nat -> P k (le_ref (nth k c (LEntry [] LNil))) (le_coord (nth k c (LEntry [] LNil))).
Proof.
  intros H. set (F := fun c k => _).
  assert (Hgen : forall len s c, (s + len = length ws)%nat -> length c = length ws ->
    (forall k, (k < s)%nat -> good_entry (nth k ws 0%nat) (nth k c (LEntry [] LNil)) /\ P k (le_ref (nth k c (LEntry [] LNil))) (le_coord (nth k c (LEntry [] LNil)))) ->
    (forall k, (s <= k)%nat -> nth k c (LEntry [] LNil) = LEntry [] LNil) ->
    exists c', foldM F (seq s len) c = Ok c' /\ length c' = length ws /\
      forall k, (k < length ws)%nat -> good_entry (nth k ws 0%nat) (nth k c' (LEntry [] LNil)) /\ P k (le_ref (nth k c' (LEntry [] LNil))) (le_coord (nth k c' (LEntry [] LNil)))).
  { induction len as [|len IH]; intros s c Hs Lc H1 H2; cbn [seq foldM].
    - exists c. split; [auto|]. split; [auto|]. intros k Hk. apply H1. lia.
    - destruct (H s) as (ref & coord & Ef & Hge & Hnil & HP); [lia|]. unfold F at 1. rewrite Ef. cbn [bind].
      destruct (add_entry_ok c s ref coord) as [_ Hok]; [lia|]. destruct Hok as (c1 & E1 & L1 & O1 & N1 & Z1).
      { destruct Hge as [_ Hge]. cbn [le_coord le_ref] in Hge. destruct coord as [|w rows]; cbn [lrows]; [rewrite Hge; reflexivity|]. symmetry. tauto. }
      rewrite E1. cbn [bind].
      assert (Es : nth s c1 (LEntry [] LNil) = LEntry ref coord).
      { destruct coord as [|w rows]; [|apply N1; discriminate]. rewrite (Z1 eq_refl). rewrite H2 by lia. rewrite (proj1 Hnil eq_refl). reflexivity. }
      apply IH; [lia|lia| |].
      + intros k Hk. destruct (Nat.eq_dec k s) as [->|Hne]; [rewrite Es; auto|]. rewrite O1 by auto. apply H1. lia.
      + intros k Hk. rewrite O1 by lia. apply H2. lia. }
  destruct (Hgen (length ws) 0%nat (empty_chains (length ws))) as (c & E & L & HH); auto.
  { unfold empty_chains. apply repeat_length. }
  { intros k Hk. lia. }
  { intros k _. unfold empty_chains. apply nth_repeat. }
  exists c. split; [exact E|]. split; [apply good_intro; auto; intros k Hk; apply HH; auto|]. intros k Hk. apply HH; auto.
Qed.

(** Every simplex of dimension [n] is a face of a simplex of dimension [n+1]. *)
Lemma cofaces_nonzero n k : (n < length nerve)%nat -> has_cofaces n0 nerve n -> (k < length (lev n))%nat ->
  exists s, (s < length (lev (Datatypes.S n)))%nat /\ Dn n k s <> 0.
Proof.
  intros Hn Hc Hk. destruct (Hc (nth k (lev n) [])) as (s & i & Hs & Hi & E); [apply nth_In; auto|].
  apply (In_nth _ _ []) in Hs. destruct Hs as (j & Hj & Ej). exists j. split; [auto|].
  destruct (ndiff_ok _ _ _ _ _ _ _ _ _ HI S PO n Hn) as (_ & _ & _ & _ & H). unfold Dn. rewrite H by auto. cbv beta. fold (lev n) (lev (Datatypes.S n)). fold (lev (Datatypes.S n)) in Ej. rewrite E, Ej.
  destruct (cov_simp _ _ _ _ HC) as (Hwf & _). destruct (Hwf (Datatypes.S n) s) as (L & I & _); [rewrite <- Ej; apply nth_In; auto|].
  rewrite bdc_facet by (auto; lia). intros Hz.
  assert (Hu : cong p (dsign n * sg i) 0) by (apply (z_iff p _ Hp1); exact Hz).
  assert (Hd : dsign n * sg i = 1 \/ dsign n * sg i = -1).
  { unfold dsign, sg. assert ((-1) ^ Z.of_nat i = 1 \/ (-1) ^ Z.of_nat i = -1).
    { clear. induction i as [|i IH]; [left; reflexivity|]. rewrite Nat2Z.inj_succ, Z.pow_succ_r by lia. lia. }
    destruct n; lia. }
  pose proof Hp1. destruct Hd as [Hd|Hd]; rewrite Hd in Hu; destruct Hu as [q Hq].
  - destruct (Z_le_gt_dec q 0); nia.
  - destruct (Z_le_gt_dec 0 q); nia.
Qed.

Theorem cech_diff_ok n deg start : (Datatypes.S n < length nerve)%nat -> (deg <= m)%nat -> has_cofaces n0 nerve n ->
  good (widths (Datatypes.S n) deg) start ->
  exists c, cech_diff S n deg start = Ok c /\ good (widths n deg) c /\
    forall k g j, (k < length (lev n))%nat -> (j < length (G n k deg))%nat ->
      value c k g j = Zsum (length (lev (Datatypes.S n))) (fun s => term start n deg k g j (s, Dn n k s)) mod p.
Proof.
  intros Hn Hd Hc Hg. unfold cech_diff. rewrite (spx_ok _ _ _ _ _ _ _ _ _ _ PO n) by lia. cbn [bind]. fold (lev n).
  destruct (fold_add_entry (cech_diff_local S start n deg) (widths n deg)
    (fun k ref coord => forall g j, (j < length (G n k deg))%nat -> at_entry (LEntry ref coord) g j =
      Zsum (length (lev (Datatypes.S n))) (fun s => term start n deg k g j (s, Dn n k s)) mod p)) as (c & E & Hgc & HP).
  { intros k Hk. rewrite widths_length in Hk. rewrite widths_nth by auto.
    destruct (cech_diff_local_ok n deg k start Hn Hk Hd Hg) as (ref & coord & E & H1 & _ & H2 & H3); [apply cofaces_nonzero; auto; lia|].
    exists ref, coord. auto. }
  rewrite widths_length in *. exists c. split; [exact E|]. split; [exact Hgc|]. intros k g j Hk Hj. unfold value.
  rewrite <- (HP k Hk g j Hj). destruct (nth k c (LEntry [] LNil)); reflexivity.
Qed.

(** ** Values on simplices of the cloud *)
Definition gval (c : chains) (n deg k g : nat) (T : list nat) : Z := on_simplices (G n k deg) (value c k g) T.

(** The Cech formula. *)
Theorem cech_formula n deg start c : (Datatypes.S n < length nerve)%nat -> (deg <= m)%nat -> has_cofaces n0 nerve n ->
  good (widths (Datatypes.S n) deg) start -> cech_diff S n deg start = Ok c ->
  forall k g T, (k < length (lev n))%nat ->
  cong p (gval c n deg k g T) (sg deg * Zsum (length (lev (Datatypes.S n))) (fun s => Dn n k s * gval start (Datatypes.S n) deg s g T)).
Proof.
  intros Hn Hd Hc Hg E k g T Hk. destruct (cech_diff_ok n deg start Hn Hd Hc Hg) as (c' & E' & _ & HV). rewrite E in E'. injection E' as <-.
  unfold gval at 1. destruct (on_simplices_cases (G n k deg) (value c k g) T (G_NoDup n k ltac:(lia) Hk deg)) as [(j & Hj & ET & ->)|[Hno ->]].
  - rewrite HV by auto. rewrite cong_mod. rewrite <- Zsum_scale. apply Zsum_cong. intros s Hs. unfold term. cbn [fst snd]. rewrite cong_mod.
    rewrite ET. unfold gval, sg. apply cong_eq. ring.
  - symmetry. rewrite Zsum_cong0; [apply cong_eq; ring|]. intros s Hs. destruct (Z.eq_dec (Dn n k s) 0) as [->|Hne]; [apply cong_eq; ring|].
    apply cong_eq. unfold gval. rewrite on_simplices_out; [ring|]. intros Hin. apply Hno.
    apply (G_In (Datatypes.S n) s) in Hin; [|lia|auto|auto]. apply G_In; auto; [lia|]. destruct Hin as [H1 H2]. split; [auto|].
    intros q Hq. apply (ndiff_incl _ _ _ _ _ _ _ _ _ HI S PO n k s ltac:(lia) Hk Hs Hne). apply H2. auto.
Qed.

Lemma gval_index c n deg k g j : (n < length nerve)%nat -> (k < length (lev n))%nat -> (j < length (G n k deg))%nat ->
  value c k g j = gval c n deg k g (nth j (G n k deg) []).
Proof. intros Hn Hk Hj. unfold gval. rewrite on_simplices_nth; auto. apply G_NoDup; auto. Qed.

(** *** C43 *)
Theorem cech_square n deg start c c' : (Datatypes.S (Datatypes.S n) < length nerve)%nat -> (deg <= m)%nat ->
  has_cofaces n0 nerve n -> has_cofaces n0 nerve (Datatypes.S n) ->
  good (widths (Datatypes.S (Datatypes.S n)) deg) start ->
  cech_diff S (Datatypes.S n) deg start = Ok c -> cech_diff S n deg c = Ok c' ->
  forall k g j, (k < length (lev n))%nat -> (j < length (G n k deg))%nat -> cong p (value c' k g j) 0.
Proof.
  intros Hn Hd Hc Hc' Hg E E' k g j Hk Hj.
  assert (Hgc : good (widths (Datatypes.S n) deg) c).
  { destruct (cech_diff_ok (Datatypes.S n) deg start) as (c0 & E0 & H0 & _); auto. rewrite E in E0. injection E0 as <-. auto. }
  rewrite (gval_index c' n deg k g j) by (auto; lia). set (T := nth j (G n k deg) []).
  rewrite (cech_formula n deg c c' ltac:(lia) Hd Hc Hgc E' k g T Hk).
  rewrite (Zsum_cong p _ _ (fun s => sg deg * Zsum (length (lev (Datatypes.S (Datatypes.S n))))
    (fun r => Dn n k s * Dn (Datatypes.S n) s r * gval start (Datatypes.S (Datatypes.S n)) deg r g T))).
  2:{ intros s Hs. rewrite (cech_formula (Datatypes.S n) deg start c Hn Hd Hc' Hg E s g T Hs). apply cong_eq.
      replace (Dn n k s * (sg deg * Zsum (length (lev (Datatypes.S (Datatypes.S n)))) (fun s0 => Dn (Datatypes.S n) s s0 * gval start (Datatypes.S (Datatypes.S n)) deg s0 g T)))
        with (sg deg * (Dn n k s * Zsum (length (lev (Datatypes.S (Datatypes.S n)))) (fun s0 => Dn (Datatypes.S n) s s0 * gval start (Datatypes.S (Datatypes.S n)) deg s0 g T))) by ring.
      f_equal. rewrite <- Zsum_scale. apply Zsum_ext. intros; ring. }
  rewrite Zsum_scale, Zsum_swap.
  rewrite (Zsum_cong0 p); [apply cong_eq; ring|]. intros r Hr. cbv beta.
  rewrite (Zsum_ext _ _ (fun s => gval start (Datatypes.S (Datatypes.S n)) deg r g T * (Dn n k s * Dn (Datatypes.S n) s r))) by (intros; ring).
  rewrite Zsum_scale.
  destruct (ndiff_ok _ _ _ _ _ _ _ _ _ HI S PO n ltac:(lia)) as (_ & _ & R1 & C1 & _).
  destruct (ndiff_ok _ _ _ _ _ _ _ _ _ HI S PO (Datatypes.S n) ltac:(lia)) as (_ & _ & R2 & C2 & _).
  destruct (C18_aux n0 nerve p n0 (s_ndiff S) Hp1 (cov_simp _ _ _ _ HC) (po_ndiff _ _ _ _ _ _ _ _ _ _ PO) n k r) as (_ & H0).
  { destruct (differentials_ok n0 nerve p Hp1 (cov_dim _ _ _ _ HC)) as (nd & End & Hl & _); [apply (cov_simp _ _ _ _ HC)|].
    rewrite (po_ndiff _ _ _ _ _ _ _ _ _ _ PO) in End. injection End as ->. lia. }
  { rewrite R1. auto. }
  { rewrite C2. auto. }
  rewrite C1 in H0. apply (z_iff p _ Hp1) in H0. unfold Dn. fold (lev (Datatypes.S n)) in H0. rewrite H0. apply cong_eq. ring.
Qed.

(** *** C44 *)

(** The boundary of a local chain, from degree [deg + 1] to [deg]. *)
Definition vbd (n deg k : nat) (v : nat -> Z) (j : nat) : Z :=
  Zsum (length (G n k (Datatypes.S deg))) (fun i => get (nth deg (l_Ds (loc n k)) (Mat 0 [])) j i * v i).

Lemma sum_on_simplices L L' (f : list nat -> Z) v : NoDup L -> incl L' L ->
  Zsum (length L) (fun i => f (nth i L []) * on_simplices L' v (nth i L [])) = Zsum (length L') (fun i => f (nth i L' []) * v i).
Proof.
  intros HN Hin. unfold on_simplices.
  rewrite (Zsum_ext _ _ (fun i => Zsum (length L') (fun i' => if list_eq_dec Nat.eq_dec (nth i' L' []) (nth i L []) then f (nth i L []) * v i' else 0))).
  2:{ intros i _. rewrite <- Zsum_scale. apply Zsum_ext. intros i' _. destruct (list_eq_dec _ _ _); ring. }
  rewrite Zsum_swap. apply Zsum_ext. intros i' Hi'.
  destruct (In_nth L (nth i' L' []) []) as (i & Hi & E); [apply Hin, nth_In; auto|].
  rewrite (Zsum_single _ i); auto.
  - rewrite E. destruct (list_eq_dec _ _ _); congruence.
  - intros l Hl Hne. destruct (list_eq_dec _ _ _) as [E'|]; auto. exfalso. apply Hne.
    apply (proj1 (NoDup_nth L []) HN); auto. congruence.
Qed.

(** The boundary at a simplex of the cloud. *)
Lemma vbd_bdc n deg k v j : (n < length nerve)%nat -> (k < length (lev n))%nat -> (deg < m)%nat -> (j < length (G n k deg))%nat ->
  cong p (vbd n deg k v j)
    (dsign deg * Zsum (length (G n k (Datatypes.S deg))) (fun i => bdc (nth j (G n k deg) []) (nth i (G n k (Datatypes.S deg)) []) * v i)).
Proof.
  intros Hn Hk Hd Hj. unfold vbd. rewrite <- Zsum_scale. apply Zsum_cong. intros i Hi. rewrite G_diff by auto. rewrite cong_mod. apply cong_eq. ring.
Qed.

Lemma bdc_outside n deg k T i : (n < length nerve)%nat -> (k < length (lev n))%nat -> (deg < m)%nat -> ~ In T (G n k deg) ->
  (i < length (G n k (Datatypes.S deg)))%nat -> bdc T (nth i (G n k (Datatypes.S deg)) []) = 0.
Proof.
  intros Hn Hk Hd HT Hi. set (U := nth i _ _). assert (HU : In U (G n k (Datatypes.S deg))) by (apply nth_In; auto).
  apply bdc_other. intros a Ha ->. apply HT. apply G_facet; auto.
  apply G_In in HU; auto. destruct HU as ((HU & _) & _). lia.
Qed.

Theorem cech_vertical n deg c c' d d' g : (Datatypes.S n < length nerve)%nat -> (deg < m)%nat -> has_cofaces n0 nerve n ->
  good (widths (Datatypes.S n) (Datatypes.S deg)) c -> good (widths (Datatypes.S n) deg) c' ->
  (forall s j, (s < length (lev (Datatypes.S n)))%nat -> (j < length (G (Datatypes.S n) s deg))%nat ->
     cong p (value c' s g j) (vbd (Datatypes.S n) deg s (value c s g) j)) ->
  cech_diff S n (Datatypes.S deg) c = Ok d -> cech_diff S n deg c' = Ok d' ->
  forall k j, (k < length (lev n))%nat -> (j < length (G n k deg))%nat ->
    cong p (vbd n deg k (value d k g) j + value d' k g j) 0.
Proof.
  intros Hn Hd Hc Hg Hg' Hv E E' k j Hk Hj.
  rewrite (gval_index d' n deg k g j) by (auto; lia). set (T := nth j (G n k deg) []).
  rewrite (cech_formula n deg c' d' Hn ltac:(lia) Hc Hg' E' k g T Hk).
  rewrite vbd_bdc by (auto; lia). fold T.
  set (B := fun s => Zsum (length (G (Datatypes.S n) s (Datatypes.S deg))) (fun i => bdc T (nth i (G (Datatypes.S n) s (Datatypes.S deg)) []) * value c s g i)).
  rewrite (Zsum_cong p (length (lev (Datatypes.S n))) _ (fun s => dsign deg * (Dn n k s * B s))).
  2:{ intros s Hs. rewrite (Z.mul_comm (dsign deg)), <- Z.mul_assoc. apply cong_mul; [reflexivity|]. unfold gval.
      destruct (on_simplices_cases (G (Datatypes.S n) s deg) (value c' s g) T (G_NoDup (Datatypes.S n) s Hn Hs deg)) as [(j' & Hj' & ET & ->)|[Hno ->]].
      - rewrite Hv by auto. rewrite vbd_bdc by auto. rewrite ET. apply cong_eq. unfold B. ring.
      - apply cong_eq. unfold B. rewrite Zsum_0; [ring|]. intros i Hi. rewrite bdc_outside by auto. ring. }
  rewrite (Zsum_cong p (length (G n k (Datatypes.S deg))) _ (fun i => Zsum (length (lev (Datatypes.S n)))
      (fun s => sg (Datatypes.S deg) * (Dn n k s * (bdc T (nth i (G n k (Datatypes.S deg)) []) * gval c (Datatypes.S n) (Datatypes.S deg) s g (nth i (G n k (Datatypes.S deg)) [])))))).
  2:{ intros i Hi. rewrite (gval_index d n (Datatypes.S deg) k g i) by (auto; lia).
      rewrite (cech_formula n (Datatypes.S deg) c d Hn ltac:(lia) Hc Hg E k g _ Hk). apply cong_eq.
      rewrite Zsum_scale. rewrite Z.mul_assoc, (Z.mul_comm (bdc _ _)), <- Z.mul_assoc. f_equal. rewrite <- Zsum_scale. apply Zsum_ext. intros; ring. }
  rewrite Zsum_swap.
  rewrite (Zsum_ext (length (lev (Datatypes.S n))) _ (fun s => sg (Datatypes.S deg) * (Dn n k s * B s))).
  2:{ intros s Hs. rewrite Zsum_scale, Zsum_scale. f_equal. destruct (Z.eq_dec (Dn n k s) 0) as [->|Hne]; [ring|]. f_equal.
      unfold gval, B. apply sum_on_simplices; [apply G_NoDup; auto; lia|]. intros U HU.
      apply (G_In (Datatypes.S n) s) in HU; [|lia|auto|lia]. apply G_In; auto; [lia|]. destruct HU as [H1 H2]. split; [auto|].
      intros q Hq. apply (ndiff_incl _ _ _ _ _ _ _ _ _ HI S PO n k s ltac:(lia) Hk Hs Hne). apply H2. auto. }
  rewrite !Zsum_scale. apply cong_eq. unfold sg. rewrite Nat2Z.inj_succ, Z.pow_succ_r by lia. ring.
Qed.
End Cech.
