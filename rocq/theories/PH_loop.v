(** * The whole persistent homology computation *)
From Verif Require Import Base ListX SortX Lin Gauss_model Gauss_arith Gauss_col Gauss_solve Basis_model Basis_props PH_model
  PH_core Spec_PH PH_step.
From Coq Require Import Znumtheory Sorting.Permutation Sorting.Sorted.
Local Open Scope Z_scope.

Section Complex.
Variables (p max_rad : Z) (n0 : nat) (Ds : list mat) (Rs : list (list Z)).
Hypothesis Hp : prime p.
Hypothesis VC : valid_complex p max_rad n0 Ds Rs.

Lemma im_ok_top : im_ok p max_rad Ds Rs (length Ds) [].
Proof.
  assert (E : csize Rs (S (length Ds)) = 0%nat) by (apply (csize_top p max_rad n0 Ds Rs VC); lia).
  constructor; try (intros g []); [constructor|].
  intros r v. rewrite (bounds_iff p Ds Rs Hp). split.
  - intros (w & _ & H). apply span_0. intros i. symmetry. rewrite <- (H i). unfold bd_of. rewrite E. reflexivity.
  - intros H. exists fzero. split.
    + intros i Hi. elim Hi. reflexivity.
    + intros i. unfold bd_of. rewrite E. cbn [Zsum]. symmetry.
      destruct H as [u H|u w z a (g & [] & _) _ _]. apply (H i).
Qed.

Lemma fold_push n0' (cap : nat) (mx : Z) ks (l : list gen) : (forall k, In k ks -> (k < cap)%nat) ->
  (length l + length ks <= cap)%nat ->
  foldM (fun l k => if Nat.ltb k cap then push cap l ((n0', mx), vunit cap k) else Err IndexError) ks l =
  Ok (l ++ map (fun k => ((n0', mx), vunit cap k)) ks).
Proof.
  revert l. induction ks as [|k ks IH]; intros l Hk Hl; cbn [foldM map].
  - rewrite app_nil_r. reflexivity.
  - cbn [length] in Hl. replace (Nat.ltb k cap) with true by (symmetry; apply Nat.ltb_lt; apply Hk; left; auto).
    rewrite push_ok by lia. cbn [bind]. rewrite IH.
    + rewrite <- app_assoc. reflexivity.
    + intros x Hx. apply Hk; right; auto.
    + rewrite app_length. cbn [length]. lia.
Qed.

Lemma vget_vunit n k i : vget (vunit n k) i = if Nat.ltb i n then (if Nat.eqb i k then 1 else 0) else 0.
Proof.
  unfold vget, vunit. destruct (Nat.ltb_spec i n).
  - rewrite nth_map_seq by auto. reflexivity.
  - rewrite nth_overflow; auto. rewrite map_length, seq_length. lia.
Qed.

Lemma ph_zero_ok ims : im_ok p max_rad Ds Rs 0 ims -> exists h,
  ph_zero n0 max_rad (map (fun g => npiv (gvec g)) ims) (csize Rs 0) (next_gens Rs 0 ims) = Ok h /\
  hom_ok p max_rad Ds Rs 0 ims h.
Proof.
  intros IO. pose proof (prime_ge_2 p Hp) as Hp2.
  set (P := map (fun g => npiv (gvec g)) ims). set (N := csize Rs 0).
  assert (HN : N = n0) by apply (vc_n0 _ _ _ _ _ VC).
  assert (HP : forall k, In k P -> (k < N)%nat).
  { unfold P. intros k Hk. apply in_map_iff in Hk. destruct Hk as (g & <- & Hg). apply (im_piv p max_rad Ds Rs 0 ims g IO Hg). }
  unfold ph_zero. rewrite <- HN. pose proof (range_diff_length N P (io_nodup _ _ _ _ _ _ IO) HP) as HL.
  rewrite fold_push.
  2:{ intros k Hk. apply in_range_diff in Hk. tauto. }
  2:{ unfold next_gens. rewrite map_length.
      assert (Nat.le (length (filter (fun g : imgen => crad Rs 0 (npiv (gvec g)) <? gdeath g) ims)) (length P)).
      { unfold P. rewrite map_length. clear.
        pose proof (filter_split_length (fun g : imgen => crad Rs 0 (npiv (gvec g)) <? gdeath g) ims) as H.
        unfold Nat.le. etransitivity; [|apply Nat.eq_le_incl, H]. apply Nat.le_add_r. }
      lia. }
  eexists. split; [reflexivity|].
  assert (Hzs : forall k, In k (range_diff N P) <-> (k < N)%nat /\ ~ In k P) by (intros; apply in_range_diff).
  assert (HUp : forall k, (k < N)%nat -> is_piv p (vget (vunit N k)) k).
  { intros k Hk. split.
    - rewrite vget_vunit, Nat.eqb_refl. replace (Nat.ltb k N) with true by (symmetry; apply Nat.ltb_lt; auto).
      apply prime_1_not_0; auto.
    - intros j Hj. rewrite vget_vunit. replace (Nat.eqb j k) with false by (symmetry; apply Nat.eqb_neq; lia).
      destruct (Nat.ltb j N); reflexivity. }
  assert (HUr : forall k, rng p (vunit N k)).
  { intros k i. rewrite vget_vunit. destruct (Nat.ltb i N), (Nat.eqb i k); lia. }
  assert (HUn : forall k, (k < N)%nat -> vany (vunit N k) = true /\ npiv (vunit N k) = k).
  { intros k Hk. assert (V : vany (vunit N k) = true).
    { destruct (vany (vunit N k)) eqn:Ev; auto. destruct (HUp k Hk) as [Hne _]. elim Hne.
      rewrite (proj1 (vany_false _) Ev k). reflexivity. }
    split; auto. apply (is_piv_unique p (vget (vunit N k))); auto. apply npiv_piv; auto. }
  assert (Hcy : forall v, veq p (bd_of Ds Rs 0 v) fzero).
  { intros v i. unfold bd_of. simpl. rewrite Zsum_0; [reflexivity|]. intros; ring. }
  assert (Hin : forall g, In g (next_gens Rs 0 ims ++ map (fun k => ((0, max_rad), vunit N k)) (range_diff N P)) ->
     (exists h, In h ims /\ crad Rs 0 (npiv (gvec h)) < gdeath h /\
                g = ((crad Rs 0 (npiv (gvec h)), gdeath h), gvec h)) \/
     (exists k, In k (range_diff N P) /\ g = ((crad Rs 0 k, max_rad), vunit N k))).
  { intros g Hg. apply in_app_iff in Hg. destruct Hg as [Hg|Hg].
    - left. apply in_map_iff in Hg. destruct Hg as (h & <- & Hh). apply filter_In in Hh. exists h.
      split; [tauto|]. split; [lia|reflexivity].
    - right. apply in_map_iff in Hg. destruct Hg as (k & <- & Hk). exists k. split; auto.
      rewrite (vc_zero _ _ _ _ _ VC); auto. apply Hzs in Hk. tauto. }
  constructor.
  - intros g Hg. destruct (Hin g Hg) as [(h & Hh & _ & ->)|(k & Hk & ->)]; cbn.
    + apply (io_len _ _ _ _ _ _ IO); auto.
    + unfold vunit. rewrite map_length, seq_length. reflexivity.
  - intros g Hg. destruct (Hin g Hg) as [(h & Hh & _ & ->)|(k & Hk & ->)]; cbn; auto.
    apply (io_rng _ _ _ _ _ _ IO); auto.
  - intros g Hg. destruct (Hin g Hg) as [(h & Hh & _ & ->)|(k & Hk & ->)]; cbn.
    + apply (io_nz _ _ _ _ _ _ IO); auto.
    + apply HUn. apply Hzs; auto.
  - intros g Hg. destruct (Hin g Hg) as [(h & Hh & _ & ->)|(k & Hk & ->)]; cbn; auto.
    destruct (HUn k) as [_ E]; [apply Hzs; auto|]. rewrite E. reflexivity.
  - rewrite map_app. apply NoDup_app_intro.
    + unfold next_gens. rewrite map_map. cbn. apply NoDup_map_filter. apply (io_nodup _ _ _ _ _ _ IO).
    + rewrite map_map. cbn. apply NoDup_map_inj; [apply NoDup_range_diff|].
      intros x y Hx Hy E. apply Hzs in Hx, Hy.
      destruct (HUn x) as [_ Ex]; [tauto|]. destruct (HUn y) as [_ Ey]; [tauto|]. congruence.
    + intros x Hx Hy. apply in_map_iff in Hx. destruct Hx as (g & <- & Hg).
      apply in_map_iff in Hg. destruct Hg as (h & <- & Hh). apply filter_In in Hh. cbn [snd] in Hy.
      apply in_map_iff in Hy. destruct Hy as (g & E & Hg). apply in_map_iff in Hg. destruct Hg as (k & <- & Hk).
      cbn in E. apply Hzs in Hk. destruct (HUn k) as [_ Ek]; [tauto|].
      destruct Hk as (_ & HnP). apply HnP. unfold P. apply in_map_iff. exists h. split; [congruence|tauto].
  - intros g Hg. apply Hcy.
  - intros g Hg. destruct (Hin g Hg) as [(h & Hh & Hl & ->)|(k & Hk & ->)]; cbn.
    + pose proof (io_bar _ _ _ _ _ _ IO h Hh). lia.
    + apply Hzs in Hk. pose proof (vc_max _ _ _ _ _ VC 0%nat k). unfold N in Hk. lia.
  - intros g Hg. destruct (Hin g Hg) as [(h & Hh & Hl & ->)|(k & Hk & ->)]; cbn.
    + intros _. exists h. auto.
    + lia.
  - intros g h Hg Hh. destruct (Hin g Hg) as [(h' & Hh' & Hl & ->)|(k & Hk & ->)]; cbn.
    + intros E. rewrite (NoDup_map_eq _ _ h' h (io_nodup _ _ _ _ _ _ IO) Hh' Hh E). reflexivity.
    + intros E. apply Hzs in Hk. destruct (HUn k) as [_ Ek]; [tauto|]. exfalso. apply (proj2 Hk).
      unfold P. apply in_map_iff. exists h. split; auto. congruence.
  - intros r v Hr Hv. destruct (prefix_of p max_rad n0 Ds Rs VC 0 r) as (m & Hm & Hpre).
    assert (Hv' := proj1 (cycle_iff p Ds Rs Hp _ _ _) Hv). destruct Hv' as [Hv1 Hv2].
    rewrite (chain_iff p Rs Hp) in Hv1.
    apply (span_by_pivots p Hp (cycle_at p Ds Rs 0 r) _ m); auto.
    + intros u w a z. apply (cycle_closed p Ds Rs Hp).
    + intros u [(g & Hg & Hal & ->)|(g & Hg & Hal & ->)]; apply (cycle_iff p Ds Rs Hp); (split; [|apply Hcy]).
      * destruct (Hin g Hg) as [(h & Hh & Hl & ->)|(k & Hk & ->)]; cbn in *.
        -- apply (piv_chain p max_rad n0 Ds Rs Hp VC 0 r _ (npiv (gvec h)));
             [apply (im_piv p max_rad Ds Rs _ _ _ IO Hh)|apply (im_piv p max_rad Ds Rs _ _ _ IO Hh)|lia].
        -- apply Hzs in Hk. apply (piv_chain p max_rad n0 Ds Rs Hp VC 0 r _ k); [apply HUp; tauto|apply Hk|lia].
      * pose proof (io_bar _ _ _ _ _ _ IO g Hg).
        apply (piv_chain p max_rad n0 Ds Rs Hp VC 0 r _ (npiv (gvec g)));
          [apply (im_piv p max_rad Ds Rs _ _ _ IO Hg)|apply (im_piv p max_rad Ds Rs _ _ _ IO Hg)|lia].
    + intros z i Hi Hz Hzp. assert (Hi' := proj2 (Hpre i) Hi). destruct Hi' as [HiN Hir].
      destruct (in_dec Nat.eq_dec i P) as [HiP|HiP].
      * unfold P in HiP. apply in_map_iff in HiP. destruct HiP as (h & Eh & Hh).
        destruct (im_piv p max_rad Ds Rs _ _ _ IO Hh) as [Hpv _]. rewrite Eh in Hpv.
        exists (vget (gvec h)). split; [|exact Hpv].
        destruct (Z_le_gt_dec (gdeath h) r) as [Hdr|Hdr].
        -- right. exists h. auto.
        -- left. exists ((crad Rs 0 (npiv (gvec h)), gdeath h), gvec h). cbn. split; [|split; auto].
           ++ apply in_app_iff. left. unfold next_gens. apply in_map_iff. exists h. split; auto.
              apply filter_In. split; auto. rewrite Eh. lia.
           ++ rewrite Eh. lia.
      * exists (vget (vunit N i)). split; [|apply HUp; auto]. left. exists ((0, max_rad), vunit N i). cbn.
        pose proof (vc_zero _ _ _ _ _ VC i HiN).
        split; [|split; auto; lia]. apply in_app_iff. right. apply in_map_iff. exists i. split; auto.
        apply Hzs. split; auto.
    + intros i Hi. apply Hv1. rewrite Hpre. lia.
Qed.

Lemma nth_app_last {A} (l : list A) x d : nth (length l) (l ++ [x]) d = x.
Proof. rewrite app_nth2, Nat.sub_diag by lia. reflexivity. Qed.

Lemma ph_loop_ok d ims : (d <= length Ds)%nat -> im_ok p max_rad Ds Rs d ims -> exists homs imss,
  ph_loop d n0 Ds Rs max_rad p (map (fun g => npiv (gvec g)) ims) (csize Rs d) (next_gens Rs d ims) = Ok (homs, imss) /\
  length homs = S d /\ length imss = d /\
  (forall e, (e < d)%nat -> im_ok p max_rad Ds Rs e (nth e imss [])) /\
  (forall e, (e <= d)%nat -> hom_ok p max_rad Ds Rs e (nth e (imss ++ [ims]) []) (nth e homs [])).
Proof.
  revert ims. induction d as [|d IH]; intros ims Hd IO.
  - destruct (ph_zero_ok ims IO) as (h & E & Hh). exists [h], []. cbn [ph_loop]. rewrite E. cbn [bind].
    split; auto. split; auto. split; auto. split; [intros; lia|]. intros e He.
    assert (e = 0%nat) by lia. subst. exact Hh.
  - destruct (ph_dim_step p max_rad n0 Ds Rs Hp VC d ims ltac:(lia) IO) as (st & E & IM & Ep & En & HO).
    destruct (IH (st_im st) ltac:(lia) IM) as (homs & imss & El & L1 & L2 & Hi & Hh).
    exists (homs ++ [st_cur st]), (imss ++ [st_im st]). cbn [ph_loop].
    rewrite (nth_err_ok Ds d (Mat 0 [])) by lia. cbn [bind].
    assert (LR : length Rs = S (length Ds)) by apply (vc_len _ _ _ _ _ VC).
    rewrite (nth_err_ok Rs (S d) []) by lia. cbn [bind].
    rewrite (nth_err_ok Rs d []) by lia. cbn [bind]. rewrite E. cbn [bind].
    rewrite (vc_nrows _ _ _ _ _ VC) by lia. rewrite Ep, En, El. cbn [bind].
    split; [reflexivity|]. rewrite !app_length. cbn [length]. split; [lia|]. split; [lia|]. split.
    + intros e He. destruct (Nat.eq_dec e d) as [->|].
      * rewrite <- L2 at 2. rewrite nth_app_last. exact IM.
      * rewrite app_nth1 by lia. apply Hi. lia.
    + intros e He. destruct (Nat.eq_dec e (S d)) as [->|].
      * replace (S d) with (length homs) at 3 by lia. rewrite nth_app_last.
        replace (S d) with (length (imss ++ [st_im st])) at 2 by (rewrite app_length; cbn; lia).
        rewrite nth_app_last. exact HO.
      * rewrite (app_nth1 homs) by lia. rewrite app_nth1 by (rewrite app_length; cbn; lia). apply Hh. lia.
Qed.

(** ** Packaging *)
Lemma filter_all {A} (f : A -> bool) l : (forall x, In x l -> f x = true) -> filter f l = l.
Proof. induction l as [|x l IH]; simpl; intros H; auto. rewrite (H x) by auto. f_equal. apply IH. auto. Qed.

Lemma mask_all {A} (m : list bool) (l : list A) : length m = length l -> (forall b, In b m -> b = true) -> mask_filter m l = l.
Proof.
  revert l. induction m as [|b m IH]; intros [|x l] H Hb; simpl in *; try discriminate; auto.
  rewrite (Hb b) by auto. f_equal. apply IH; auto.
Qed.

Section Pack.
Context {G : Type}.
Variables (br : G -> Z * Z) (vc : G -> vec) (g0 : G) (rnd : Z -> Z).

Lemma mk_basis_all gens basis n store : gens <> [] -> b_dim basis = n ->
  (forall g, In g gens -> fst (br g) < snd (br g)) ->
  mk_basis false (map br gens) (Some basis) (Mat n (map vc gens)) store false None =
  Ok (Basis (map br gens) false (length gens) (Some basis) (Mat n (map vc gens)) false None
        (if store then Some (well_defined (map br gens)) else None)).
Proof.
  intros Hg Hn Hb. unfold mk_basis. cbn [andb].
  assert (L : Nat.eqb (length (map br gens)) 0 = false).
  { rewrite map_length. destruct gens; [congruence|reflexivity]. }
  rewrite L. rewrite andb_false_r.
  assert (W : forall b, In b (well_defined (map br gens)) -> b = true).
  { unfold well_defined. intros b Hbb. apply in_map_iff in Hbb. destruct Hbb as (x & <- & Hx).
    apply in_map_iff in Hx. destruct Hx as (g & <- & Hgg). apply Z.ltb_lt. auto. }
  assert (LW : length (well_defined (map br gens)) = length gens) by (unfold well_defined; rewrite !map_length; auto).
  rewrite (mask_all _ (map br gens)) by (auto; rewrite LW, map_length; auto).
  replace (length (filter (fun b => b) (well_defined (map br gens)))) with (length gens)
    by (rewrite filter_all; auto).
  unfold mk_coords. cbn [ncols nrows cols]. unfold ncols. cbn [cols]. rewrite map_length.
  replace (Nat.ltb 0 (length gens)) with true by (destruct gens; [congruence|reflexivity]).
  rewrite Hn, Nat.eqb_refl. cbn [negb]. rewrite map_length, Nat.eqb_refl. cbn [negb].
  rewrite (mask_all _ (map vc gens)) by (auto; rewrite LW, map_length; auto).
  cbn [bind mk_brk]. reflexivity.
Qed.

Definition std_sorted (bars : list (Z * Z)) : Prop :=
  forall i j, (i < j < length bars)%nat -> bar_before rnd bars i j.

Lemma map_take {A B} (f : A -> B) l d d' o : (forall i, In i o -> (i < length l)%nat) ->
  map f (take d l o) = take d' (map f l) o.
Proof.
  intros H. unfold take. rewrite map_map. apply map_ext_in. intros i Hi. symmetry. apply nth_map. auto.
Qed.

Lemma take_perm {A} (l : list A) d o : Permutation (seq 0 (length l)) o -> Permutation l (take d l o).
Proof.
  intros H. transitivity (take d l (seq 0 (length l))).
  - unfold take. rewrite map_nth_seq. reflexivity.
  - unfold take. apply Permutation_map. auto.
Qed.

Lemma b_sort_all gens basis n wd : let order := sort_order rnd (map br gens) in
  let s := take g0 gens order in
  b_sort rnd (Basis (map br gens) false (length gens) (Some basis) (Mat n (map vc gens)) false None wd) =
  Ok (Basis (map br s) false (length s) (Some basis) (Mat n (map vc s)) true None wd, order) /\
  Permutation gens s /\ std_sorted (map br s) /\ (forall i, In i order -> (i < length gens)%nat).
Proof.
  intros order s.
  assert (Ho : forall i, In i order -> (i < length gens)%nat).
  { intros i Hi. apply sort_order_lt in Hi. rewrite map_length in Hi. auto. }
  assert (Hpm : Permutation gens s).
  { apply take_perm. rewrite <- (map_length br). apply sort_order_perm. }
  split.
  - unfold b_sort. cbn [b_flat b_bars b_prev b_coords b_dim b_brk b_wd]. fold order.
    rewrite take_cols_err_ok by (unfold ncols; cbn [cols]; rewrite map_length; auto). cbn [bind].
    unfold take_cols. cbn [nrows cols]. unfold s. rewrite <- (map_take br gens g0 (0, 0) order Ho).
    rewrite (map_take vc gens g0 [] order Ho). rewrite (Permutation_length Hpm). reflexivity.
  - split; auto. split; auto. intros i j Hij.
    pose proof (resort rnd (map br gens)) as E. cbn zeta in E. fold order in E.
    change (map (fun k => nth k (map br gens) (0, 0)) order) with (take (0, 0) (map br gens) order) in E.
    rewrite <- (map_take br gens g0 (0, 0) order Ho) in E. fold s in E.
    pose proof (sort_order_sorted rnd (map br s)) as S. rewrite E in S.
    assert (Hij' : (i < j < length (seq 0 (length (map br s))))%nat) by (rewrite seq_length; lia).
    pose proof (sorted_nth _ _ 0%nat S i j Hij') as X.
    rewrite !seq_nth in X by lia. exact X.
Qed.
End Pack.

Lemma ph_simplices_ok d : (d <= length Ds)%nat -> exists b, ph_simplices d n0 (nth d Rs []) max_rad = Ok b /\ b_dim b = csize Rs d.
Proof.
  intros Hd. unfold ph_simplices, plain_basis, mk_basis. cbn [andb mk_coords bind mk_brk].
  eexists. split; [reflexivity|].
  destruct (Nat.eqb_spec d 0) as [->|Hd0]; cbn [b_dim].
  - symmetry. apply (vc_n0 _ _ _ _ _ VC).
  - rewrite map_length. fold (csize Rs d). destruct (Nat.eqb_spec (csize Rs d) 0); auto.
    unfold well_defined. rewrite map_map. rewrite filter_all.
    + rewrite map_length. reflexivity.
    + intros b Hb. apply in_map_iff in Hb. destruct Hb as (x & <- & Hx). cbn. apply Z.ltb_lt.
      apply In_nth with (d := 0) in Hx. destruct Hx as (i & Hi & <-). apply (vc_max _ _ _ _ _ VC d i). exact Hi.
Qed.

(** A packaged basis holds the generators [s], in standard order. *)
Definition holds {G} (br : G -> Z * Z) (vc : G -> vec) (rnd : Z -> Z) (n : nat) (b : basis) (s : list G) : Prop :=
  b_bars b = map br s /\ cols (b_coords b) = map vc s /\ b_dim b = length s /\
  (s <> [] -> nrows (b_coords b) = n /\ b_flat b = false) /\ std_sorted rnd (map br s) /\ b_brk b = None.

Lemma empty_holds {G} (br : G -> Z * Z) (vc : G -> vec) rnd n : holds br vc rnd n empty_basis [].
Proof.
  unfold holds. cbn. repeat split; auto; try congruence. intros i j H. cbn in H. lia.
Qed.

Lemma pack_hom_ok rnd basis n (gens : list gen) : b_dim basis = n ->
  (forall g, In g gens -> fst (fst g) < snd (fst g)) ->
  exists h s, pack_hom rnd basis n gens = Ok h /\ Permutation gens s /\ holds fst snd rnd n h s.
Proof.
  intros Hn Hb. unfold pack_hom. destruct gens as [|g gens].
  - cbn. exists empty_basis, []. split; auto. split; auto. apply empty_holds.
  - cbn [length Nat.ltb Nat.leb]. set (gs := g :: gens) in *.
    rewrite (mk_basis_all fst snd gs basis n false); auto; [|discriminate]. cbn [bind].
    destruct (b_sort_all fst snd ((0, 0), []) rnd gs basis n None) as (E & Hpm & Hs & _).
    rewrite E. cbn [bind]. eexists. eexists. split; [reflexivity|]. split; [exact Hpm|].
    unfold holds. cbn [b_bars b_coords cols b_dim nrows b_flat b_brk]. repeat split; auto.
Qed.

Lemma pack_im_ok rnd basis n n' (gens : list imgen) : b_dim basis = n ->
  (forall g, In g gens -> fst (fst (fst g)) < snd (fst (fst g))) ->
  exists b pre s, pack_im rnd basis n n' gens = Ok (b, pre) /\ Permutation gens s /\
    holds (fun g => fst (fst g)) gvec rnd n b s /\ pre = Mat n' (map snd s).
Proof.
  intros Hn Hb. unfold pack_im. destruct gens as [|g gens].
  - cbn. exists empty_basis, (Mat n' []), []. split; auto. split; auto. split; auto. apply empty_holds.
  - cbn [length Nat.ltb Nat.leb]. set (gs := g :: gens) in *.
    change (fun g : imgen => snd (fst g)) with gvec.
    rewrite (mk_basis_all (fun g : imgen => fst (fst g)) gvec gs basis n true); auto; [|discriminate]. cbn [bind b_wd].
    destruct (b_sort_all (fun g : imgen => fst (fst g)) gvec ((0, 0), [], []) rnd gs basis n
                (Some (well_defined (map (fun g : imgen => fst (fst g)) gs)))) as (E & Hpm & Hs & Ho).
    rewrite E. cbn [bind]. rewrite mask_all.
    2:{ unfold well_defined. rewrite !map_length. reflexivity. }
    2:{ unfold well_defined. intros b Hbb. rewrite map_map in Hbb. apply in_map_iff in Hbb.
        destruct Hbb as (x & <- & Hx). apply Z.ltb_lt. auto. }
    rewrite take_cols_err_ok by (unfold ncols; cbn [cols]; rewrite map_length; auto). cbn [bind].
    match goal with |- context [take_cols _ ?o] =>
      change (take_cols (Mat n' (map snd gs)) o) with (Mat n' (take ([] : vec) (map snd gs) o)) end.
    rewrite <- (map_take snd gs ((0, 0), [], []) [] _ Ho).
    eexists. eexists. eexists. split; [reflexivity|]. split; [exact Hpm|]. split; [|reflexivity].
    unfold holds. cbn [b_bars b_coords cols b_dim nrows b_flat b_brk]. repeat split; auto.
Qed.

Lemma hom_set_perm gens gens' r u : Permutation gens gens' -> hom_set gens r u -> hom_set gens' r u.
Proof. intros H (g & Hg & X). exists g. split; auto. apply (Permutation_in g H Hg). Qed.
Lemma im_set_perm ims ims' r u : Permutation ims ims' -> im_set ims r u -> im_set ims' r u.
Proof. intros H (g & Hg & X). exists g. split; auto. apply (Permutation_in g H Hg). Qed.

Lemma im_ok_perm d ims ims' : Permutation ims ims' -> im_ok p max_rad Ds Rs d ims -> im_ok p max_rad Ds Rs d ims'.
Proof.
  intros H IO. assert (Hin : forall g, In g ims' -> In g ims) by (intros g; apply Permutation_in; symmetry; auto).
  constructor; try (intros g Hg; apply Hin in Hg; destruct IO; auto).
  - eapply Permutation_NoDup; [apply Permutation_map; exact H|apply (io_nodup _ _ _ _ _ _ IO)].
  - intros r v. rewrite (io_bounds _ _ _ _ _ _ IO r v). split; apply span_mono; intros u; apply im_set_perm; auto.
    symmetry; auto.
Qed.

Lemma hom_ok_perm d ims ims' gens gens' : Permutation ims ims' -> Permutation gens gens' ->
  hom_ok p max_rad Ds Rs d ims gens -> hom_ok p max_rad Ds Rs d ims' gens'.
Proof.
  intros Hi H HO. assert (Hin : forall g, In g gens' -> In g gens) by (intros g; apply Permutation_in; symmetry; auto).
  constructor; try (intros g Hg; apply Hin in Hg; destruct HO; auto; fail).
  - eapply Permutation_NoDup; [apply Permutation_map; exact H|apply (ho_nodup _ _ _ _ _ _ _ HO)].
  - intros g Hg Hl. apply Hin in Hg. destruct (ho_fin _ _ _ _ _ _ _ HO g Hg Hl) as (h & Hh & X).
    exists h. split; auto. apply (Permutation_in h Hi Hh).
  - intros g h Hg Hh. apply (ho_disj _ _ _ _ _ _ _ HO); auto. apply (Permutation_in h (Permutation_sym Hi) Hh).
  - intros r v Hr Hv. apply (span_mono p _ _ _ ltac:(intros u X; exact X)).
    eapply span_mono; [|apply (ho_span _ _ _ _ _ _ _ HO r v Hr Hv)].
    intros u [X|X]; [left; eapply hom_set_perm|right; eapply im_set_perm]; eauto.
Qed.

Lemma persistent_homology_ok rnd : exists out,
  persistent_homology rnd n0 Ds Rs max_rad p = Ok out /\
  length (ph_hom out) = S (length Ds) /\ length (ph_im out) = S (length Ds) /\ length (ph_preim out) = S (length Ds) /\
  forall d, (d <= length Ds)%nat -> exists ims gens,
     hom_ok p max_rad Ds Rs d ims gens /\ im_ok p max_rad Ds Rs d ims /\
     holds fst snd rnd (csize Rs d) (nth d (ph_hom out) empty_basis) gens /\
     holds (fun g => fst (fst g)) gvec rnd (csize Rs d) (nth d (ph_im out) empty_basis) ims /\
     ((d < length Ds)%nat -> nth (S d) (ph_preim out) (Mat 0 []) = Mat (csize Rs (S d)) (map snd ims)) /\
     (d = length Ds -> ims = []).
Proof.
  pose proof (vc_top _ _ _ _ _ VC) as Ht.
  destruct (ph_loop_ok (length Ds) [] (le_n _) im_ok_top) as (homs & imss & El & L1 & L2 & Hi & Hh).
  unfold persistent_homology.
  replace (Nat.eqb (length Ds) 0) with false by (symmetry; apply Nat.eqb_neq; lia).
  rewrite (vc_ncols _ _ _ _ _ VC) by lia. replace (S (length Ds - 1)) with (length Ds) by lia.
  cbn [map next_gens filter] in El. unfold next_gens in El. cbn [map filter] in El. rewrite El. cbn [bind].
  unfold ph_pack.
  match goal with |- context [mapM ?g _] => set (f := g) end. set (top := length Ds) in *.
  assert (LR : length Rs = S top) by apply (vc_len _ _ _ _ _ VC).
  assert (F : forall d, (d <= top)%nat -> exists h b pre sg si, f d = Ok (h, (b, pre)) /\
     Permutation (nth d homs []) sg /\ Permutation (nth d (imss ++ [[]]) []) si /\
     holds fst snd rnd (csize Rs d) h sg /\ holds (fun g => fst (fst g)) gvec rnd (csize Rs d) b si /\
     ((d < top)%nat -> pre = Mat (csize Rs (S d)) (map snd si))).
  { intros d Hd. unfold f. rewrite (nth_err_ok Rs d []) by lia. cbn [bind].
    destruct (ph_simplices_ok d Hd) as (bs & Eb & Hbs). rewrite Eb. cbn [bind]. fold (csize Rs d).
    specialize (Hh d Hd).
    destruct (pack_hom_ok rnd bs (csize Rs d) (nth d homs []) Hbs) as (h & sg & Eh & Pg & Hg).
    { intros g Hg. apply (ho_bar _ _ _ _ _ _ _ Hh g Hg). }
    rewrite Eh. cbn [bind]. destruct (Nat.ltb_spec (S d) (S top)) as [Hlt|Hlt].
    - fold (csize Rs (S d)).
      destruct (pack_im_ok rnd bs (csize Rs d) (csize Rs (S d)) (nth d imss []) Hbs) as (b & pre & si & Ei & Pi & Hbi & Epre).
      { intros g Hgi. pose proof (io_bar _ _ _ _ _ _ (Hi d ltac:(lia)) g Hgi). unfold gdeath in *. lia. }
      rewrite Ei. cbn [bind]. exists h, b, pre, sg, si. split; auto. split; auto.
      rewrite app_nth1 by lia. auto.
    - cbn [bind]. exists h, empty_basis, (Mat 0 []), sg, []. split; auto. split; auto.
      assert (d = top) by lia. subst d. rewrite <- L2 at 1. rewrite nth_app_last.
      split; auto. split; auto. split; [apply empty_holds|]. lia. }
  destruct (mapM_total f (seq 0 (S top))) as [ys Ey].
  { intros d Hd. apply in_seq in Hd. destruct (F d ltac:(lia)) as (h & b & pre & _ & _ & E & _). eauto. }
  rewrite Ey. cbn [bind]. apply mapM_Ok in Ey. destruct Ey as [Ly Ey]. rewrite seq_length in Ly.
  eexists. split; [reflexivity|]. cbn [ph_hom ph_im ph_preim length]. rewrite !map_length.
  assert (Lr : length (removelast ys) = top).
  { rewrite removelast_firstn_len, firstn_length, Ly. lia. }
  rewrite Lr. split; [exact Ly|]. split; [exact Ly|]. split; [reflexivity|].
  intros d Hd. destruct (F d Hd) as (h & b & pre & sg & si & E & Pg & Pi & Hg & Hb & Hpre).
  specialize (Ey d 0%nat (empty_basis, (empty_basis, Mat 0 []))). rewrite seq_length, seq_nth in Ey by lia.
  specialize (Ey ltac:(lia)). cbn [plus] in Ey. rewrite E in Ey. injection Ey as Ey.
  exists si, sg.
  assert (IO : im_ok p max_rad Ds Rs d (nth d (imss ++ [[]]) [])).
  { destruct (Nat.eq_dec d top) as [->|].
    - rewrite <- L2 at 2. rewrite nth_app_last. apply im_ok_top.
    - rewrite app_nth1 by lia. apply Hi. lia. }
  split; [apply (hom_ok_perm d _ _ _ _ Pi Pg); apply Hh; auto|].
  split; [apply (im_ok_perm d _ _ Pi IO)|].
  split; [rewrite (nth_map fst ys d (empty_basis, (empty_basis, Mat 0 []))) by lia; rewrite <- Ey; exact Hg|].
  split; [rewrite (nth_map (fun x => fst (snd x)) ys d (empty_basis, (empty_basis, Mat 0 []))) by lia; rewrite <- Ey; exact Hb|].
  split.
  - intros Hlt. cbn [nth].
    rewrite (nth_map (fun x => snd (snd x)) _ d (empty_basis, (empty_basis, Mat 0 []))) by lia.
    rewrite removelast_firstn_len, nth_firstn by lia. rewrite <- Ey. cbn [snd]. auto.
  - intros ->. rewrite <- L2 in Pi at 1. rewrite nth_app_last in Pi. apply Permutation_nil; auto.
Qed.
End Complex.
