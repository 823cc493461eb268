(** * The pages from the second on are computed without failure when only row 0 has classes *)
From Coq Require Import QArith.
From Verif Require Import Base ListX SortX Lin Gauss_model Gauss_arith Gauss_col Gauss_solve Gauss_bar Basis_model Basis_props PH_model PH_loop Simp_model Simp_lists LC_model Spec_LC LC_props SS_model
  IK_model IK_post IK_mph MPH_props Spec_IK Cover_model HP_model HP_table HP_row HP_gens HP_second HP_zero HP_pages HP_two HP_shape HP_higher Nerve_pages.
From Coq Require Import Permutation.
Local Open Scope Z_scope.
Local Notation e0 := (LEntry [] LNil).

(** ** Homology of a sequence without two consecutive terms *)

Lemma mph_loop_apart rnd D Bs p d : forall Im_d Hom Im Pre, (d < length Bs)%nat -> (d < length D)%nat ->
  (forall e, (e < d)%nat -> b_dim (nth (Datatypes.S e) Bs empty_basis) = 0%nat \/ b_dim (nth e Bs empty_basis) = 0%nat) -> (forall x, In x Pre -> x = None) ->
  exists H I Q, mph_loop rnd D Bs p d Im_d Hom Im Pre = Ok (H, I, Q) /\ forall x, In x Q -> x = None.
Proof.
  induction d as [|d IH]; intros Im_d Hom Im Pre Hd HD Hz HQ; cbn [mph_loop]; [eauto 6|].
  rewrite (nth_err_nth Bs (Datatypes.S d) empty_basis) by exact Hd. cbn [bind]. rewrite (nth_err_nth Bs d empty_basis) by lia. cbn [bind].
  rewrite (nth_err_nth D (Datatypes.S d) (Mat 0 [])) by exact HD. cbn [bind]. unfold mph_step.
  destruct (Nat.eqb_spec (b_dim (nth (Datatypes.S d) Bs empty_basis)) 0) as [Z0|Z0].
  - destruct (empty_over_total (nth d Bs empty_basis)) as (i & ->). cbn [bind]. destruct (empty_over_total (nth (Datatypes.S d) Bs empty_basis)) as (h & ->). cbn [bind].
    apply IH; [lia|lia|intros e He; apply Hz; lia|]. intros x [<-|Hx]; auto.
  - destruct (Hz d ltac:(lia)) as [X|X]; [contradiction|]. rewrite X. cbn [Nat.eqb bind]. apply IH; [lia|lia|intros e He; apply Hz; lia|]. intros x [<-|Hx]; auto.
Qed.

Lemma mph_apart rnd D B Bs p : length D = Datatypes.S (length Bs) -> (Bs = [] /\ proper B) \/ b_dim B = 0%nat ->
  (forall e, (e < length Bs)%nat -> b_dim (nth (Datatypes.S e) (B :: Bs) empty_basis) = 0%nat \/ b_dim (nth e (B :: Bs) empty_basis) = 0%nat) ->
  exists Hom Im Pre, module_persistence_homology rnd D (B :: Bs) p = Ok (Hom, Im, Pre) /\ forall x, In x Pre -> x = None.
Proof.
  intros LD [[-> HB]|HB] Hz.
  - destruct (mph_total rnd D B [] p) as (Hom & Im & Pre & E & _ & _ & L3); [exact LD|left; exact HB|intros X []|]. exists Hom, Im, Pre. split; [exact E|].
    unfold module_persistence_homology in E. cbn [length Nat.sub] in E. change (nth_err [B] 0) with (Ok B) in E. cbn [bind] in E. destruct (empty_over B) as [e|]; [|discriminate]. cbn [bind mph_loop] in E.
    match type of E with bind ?x _ = _ => destruct x as [H0|]; [|discriminate] end. cbn [bind] in E. injection E as _ _ <-. intros x [<-|[]]. reflexivity.
  - unfold module_persistence_homology. set (Bs' := B :: Bs) in *.
    rewrite (nth_err_nth Bs' (length Bs' - 1) empty_basis) by (unfold Bs'; cbn [length]; lia). cbn [bind].
    destruct (empty_over_total (nth (length Bs' - 1) Bs' empty_basis)) as (e & Ee). rewrite Ee. cbn [bind].
    destruct (mph_loop_apart rnd D Bs' p (length Bs' - 1) e [] [] []) as (Hom & Im & Pre & EL & HQ); [unfold Bs'; cbn [length]; lia|unfold Bs'; cbn [length]; lia| |intros x []|].
    { intros i Hi. apply Hz. unfold Bs' in Hi. cbn [length] in Hi. lia. }
    rewrite EL. cbn [bind]. rewrite HB. cbn [Nat.eqb bind]. do 3 eexists. split; [reflexivity|]. intros x [<-|Hx]; auto.
Qed.

(** ** What is needed of the generators of row 0 *)

Section Higher.
Variables (rnd : Z -> Z) (S : ss) (m np cs : nat) (ne : nat -> Prop).
Let L := length (s_nerve S).
Hypothesis Hnp : (np <= L)%nat.
Hypothesis Hcs : (L <= cs)%nat.
(** Nothing comes out of the Cech differential into the rows above 0. *)
Hypothesis cdl : forall n d c R, (n < L)%nat -> ne n -> (1 <= d < m)%nat ->
  exists B l, cech_diff_and_lift S n d c R = Ok (B, l) /\ many B = false /\ (exists ws, good ws l) /\ forall j, le_ref (nth j l e0) = [].

Definition refs_below (N : nat) (c : chains) : Prop := (exists ws, good ws c) /\ forall j g, In g (le_ref (nth j c e0)) -> (g < N)%nat.

Definition rep_ok (P : pages) (k : nat) : Prop := forall n H, tget (h_hom P) k n 0 = Ok H -> (0 < b_dim H)%nat ->
  b_flat H = false /\ (forall n', (n' < n)%nat -> ne n') /\ ((0 < n)%nat -> (b_dim H <= nrows (b_coords H))%nat) /\ ncols (b_coords H) = b_dim H /\
  exists R, tget (h_reps P) k n 0 = Ok R /\ R <> [] /\ (length R = 1 + Nat.min k n)%nat /\ Forall (refs_below (b_dim H)) R.

Definition pre_ok (P : pages) : Prop := forall k n d x, (0 < d)%nat -> tget (h_preim P) k n d = Ok x -> x = None.

Lemma sums_below H R : (b_dim H <= nrows (b_coords H))%nat -> ncols (b_coords H) = b_dim H -> Forall (refs_below (b_dim H)) R ->
  exists R', mapM (fun c => sums c (mtr (b_coords H))) R = Ok R' /\ length R' = length R /\ Forall (refs_below (b_dim H)) R'.
Proof.
  intros H1 H2 HF. induction HF as [|c R [(ws & Hw) Hc] _ (R' & E & EL & F)]; [exists []; auto|].
  destruct (mtr_dims (b_coords H)) as [M1 M2].
  destruct (sums_ok ws (mtr (b_coords H)) c Hw) as (c' & Ec & Gc & Rc & _); [intros k g Hg; rewrite M2; specialize (Hc _ _ Hg); lia|].
  exists (c' :: R'). cbn [mapM]. rewrite Ec. cbn [bind]. rewrite E. cbn [bind]. split; [reflexivity|]. split; [cbn [length]; lia|]. constructor; [|exact F]. split; [eauto|].
  intros j g Hg. rewrite Rc in Hg. destruct (Nat.eqb _ 0); [destruct Hg|]. apply in_seq in Hg. lia.
Qed.

Lemma calm_lift P n d cp B bars : (2 <= cp < Datatypes.S np)%nat -> (n < cs)%nat -> (1 <= d < m)%nat -> shape np cs m P -> calm P 1 -> lift_to_page rnd S P n d cp B bars = Ok (None, None).
Proof.
  intros Hcp Hn Hd SH HC. unfold lift_to_page. destruct cp as [|[|cp]]; try lia. replace (Datatypes.S (Datatypes.S cp) - 1)%nat with (Datatypes.S cp) by lia. cbn [seq lift_loop].
  destruct (sh_im _ _ _ _ SH 1%nat n d) as (I & ->); [lia|lia|lia|]. cbn [bind]. destruct (sh_hom _ _ _ _ SH 1%nat n d) as (H & EH); [lia|lia|lia|]. rewrite EH. cbn [bind].
  destruct (proj1 (HC n d ltac:(lia)) H EH) as [-> _]. reflexivity.
Qed.

Lemma last_err_some {A} (l : list A) : l <> [] -> exists x, last_err l = Ok x.
Proof. intros H. unfold last_err. destruct (rev l) as [|x r] eqn:E; [|eauto]. exfalso. apply H. rewrite <- (rev_involutive l), E. reflexivity. Qed.

(** The representatives at a place of row 0. *)
Lemma reps_total P n cp H R : (2 <= cp < np)%nat -> (n < L)%nat -> (cp - 1 < m)%nat \/ (n < cp)%nat -> shape np cs m P -> calm P 1 -> pre_ok P ->
  tget (h_hom P) cp n 0 = Ok H -> (0 < b_dim H)%nat -> tget (h_reps P) (cp - 1) n 0 = Ok R -> R <> [] -> (length R = 1 + Nat.min (cp - 1) n)%nat ->
  (forall n', (n' < n)%nat -> ne n') -> (exists R', mapM (fun c => sums c (mtr (b_coords H))) R = Ok R' /\ length R' = length R /\ Forall (refs_below (b_dim H)) R') ->
  exists rc, compute_higher_representatives rnd S P n 0 cp = set_reps P cp n 0 rc /\ rc <> [] /\ (length rc = 1 + Nat.min cp n)%nat /\ Forall (refs_below (b_dim H)) rc.
Proof.
  intros Hcp Hn Hm SH HC HP TH Hb TR HR1 HR2 Hne (R' & ER & LR & FR). unfold compute_higher_representatives. rewrite TH. cbn [bind].
  destruct (Nat.eqb_spec (b_dim H) 0) as [X|_]; [lia|]. rewrite TR. cbn [bind]. rewrite ER. cbn [bind].
  assert (R'ne : R' <> []) by (intros ->; destruct R; [contradiction|discriminate]).
  destruct (Nat.ltb_spec n cp) as [X|X]; [exists R'; split; [reflexivity|]; split; [exact R'ne|]; split; [lia|exact FR]|].
  destruct Hm as [Hm|Hm]; [|lia]. destruct (last_err_some R' R'ne) as (lc & El). replace (0 + cp - 1)%nat with (cp - 1)%nat by lia.
  assert (St : forall tp, (2 <= tp <= cp)%nat -> higher_step rnd S P (n - cp) (cp - 1) cp (b_bars H) R' tp = Ok R').
  { intros tp Ht. unfold higher_step. rewrite El. cbn [bind]. destruct (cdl (n - cp) (cp - 1) lc (map fst (b_bars H)) ltac:(lia) ltac:(apply Hne; lia) ltac:(lia)) as (B & l & Ec & _). rewrite Ec. cbn [bind].
    rewrite (calm_lift P (n - cp) (cp - 1) tp B (b_bars H)) by (auto; lia). cbn [bind].
    destruct (sh_pre _ _ _ _ SH (tp - 1)%nat (n - cp + tp - 1)%nat (cp - 1 + 2 - tp)%nat) as (pre & Ep); [lia|lia|lia|]. rewrite Ep. cbn [bind].
    rewrite (HP _ _ (cp - 1 + 2 - tp)%nat _ ltac:(lia) Ep). reflexivity. }
  assert (Fo : foldM (higher_step rnd S P (n - cp) (cp - 1) cp (b_bars H)) (rev (seq 2 (cp - 1))) R' = Ok R').
  { assert (G : forall l, (forall tp, In tp l -> (2 <= tp <= cp)%nat) -> foldM (higher_step rnd S P (n - cp) (cp - 1) cp (b_bars H)) l R' = Ok R').
    { induction l as [|t l IH]; intros Hl; [reflexivity|]. cbn [foldM]. rewrite St by (apply Hl; left; reflexivity). cbn [bind]. apply IH. intros; apply Hl; right; assumption. }
    apply G. intros tp Ht. apply in_rev in Ht. apply in_seq in Ht. lia. }
  rewrite Fo. cbn [bind]. rewrite El. cbn [bind].
  destruct (cdl (n - cp) (cp - 1) lc (births H) ltac:(lia) ltac:(apply Hne; lia) ltac:(lia)) as (B & l & Ec & Em & Eg & Er). rewrite Ec. cbn [bind]. rewrite Em.
  exists (R' ++ [l]). split; [reflexivity|]. split; [intros Y; apply app_eq_nil in Y; destruct Y; discriminate|]. rewrite app_length. cbn [length]. split; [lia|].
  apply Forall_app. split; [exact FR|]. constructor; [|constructor]. split; [exact Eg|]. intros j g Hg. rewrite Er in Hg. destruct Hg.
Qed.

Lemma add_output_pre cp : forall outs P n d P', add_output_higher P outs n d cp = Ok P' -> (forall o, In o outs -> snd o = None) -> pre_ok P -> pre_ok P'.
Proof.
  induction outs as [|[[h im] pre] outs IH]; intros P n d P' E Ho HP; cbn [add_output_higher] in E; [injection E as <-; auto|].
  destruct (tset (h_preim P) cp n d pre) as [a|] eqn:E1; [|discriminate]. cbn [bind] in E.
  destruct (tset (h_hom P) cp n d h) as [b|] eqn:E2; [|discriminate]. cbn [bind] in E.
  destruct (tset (h_dim P) (1 + cp) n d (b_dim h)) as [c|] eqn:E3; [|discriminate]. cbn [bind] in E.
  destruct (tset (h_im P) cp n d (Some im)) as [e|] eqn:E4; [|discriminate]. cbn [bind] in E.
  apply IH in E; [exact E|intros o Hx; apply Ho; right; exact Hx|]. intros k' n' d' x Hd Ex. cbn [h_preim] in Ex. rewrite (tget_tset _ _ _ _ _ _ E1) in Ex.
  destruct (Nat.eqb k' cp && Nat.eqb n' n && Nat.eqb d' d); [injection Ex as <-; apply (Ho _ (or_introl eq_refl))|apply (HP _ _ _ _ Hd Ex)].
Qed.

Lemma higher_pre P n d cp P' : compute_higher_representatives rnd S P n d cp = Ok P' -> h_preim P' = h_preim P.
Proof.
  unfold compute_higher_representatives. intros E.
  assert (X : forall rc, set_reps P cp n d rc = Ok P' -> h_preim P' = h_preim P).
  { intros rc Y. unfold set_reps in Y. destruct (tset (h_reps P) cp n d rc); [|discriminate]. cbn [bind] in Y. injection Y as <-. reflexivity. }
  destruct (tget (h_hom P) cp n d) as [h|]; [|discriminate]. cbn [bind] in E. destruct (Nat.eqb (b_dim h) 0); [apply (X _ E)|].
  destruct (tget (h_reps P) (cp - 1) n d) as [prev|]; [|discriminate]. cbn [bind] in E. destruct (mapM _ prev) as [tot|]; [|discriminate]. cbn [bind] in E.
  destruct (Nat.ltb n cp); [apply (X _ E)|]. destruct (foldM _ _ tot) as [tot'|]; [|discriminate]. cbn [bind] in E. destruct (last_err tot') as [lc|]; [|discriminate]. cbn [bind] in E.
  destruct (cech_diff_and_lift _ _ _ _ _) as [[B l]|]; [|discriminate]. cbn [bind] in E. destruct (many B); [discriminate|]. apply (X _ E).
Qed.

(** One row of a page. *)
Lemma row_total P n d cp : (2 <= cp < np)%nat -> (n < cp)%nat -> (d < m)%nat -> shape np cs m P -> calm P 1 ->
  row_proper P (cp - 1) -> calm P (cp - 1) -> calm P cp -> row_proper P cp -> pre_ok P -> rep_ok P (cp - 1) -> rep_ok P cp ->
  exists P', higher_page_row rnd S cp P (n, d) = Ok P' /\ shape np cs m P' /\ pre_ok P' /\ rep_ok P' cp.
Proof.
  intros Hcp Hn Hd SH HC1 HF HT1 HT HF2 HP HR HR2. unfold higher_page_row. cbn [fst snd]. fold L. set (pos := positions (1 + L) L n d cp).
  assert (Pos : forall i, (i < length pos)%nat -> nth i pos (0, 0)%nat = ((n + i * cp)%nat, (d - i * (cp - 1))%nat) /\ (n + i * cp < L)%nat /\ (i * (cp - 1) <= d)%nat) by (intros i; apply Nerve_pages.positions_nth; lia).
  assert (Hp : forall x, In x pos -> exists i, (i < length pos)%nat /\ x = ((n + i * cp)%nat, (d - i * (cp - 1))%nat) /\ (n + i * cp < L)%nat /\ (i * (cp - 1) <= d)%nat).
  { intros x Hx. apply (In_nth _ _ (0, 0)%nat) in Hx. destruct Hx as (i & Hi & <-). exists i. split; [exact Hi|]. apply Pos. exact Hi. }
  assert (Lpos : (0 < length pos)%nat) by (apply (positions_len cp); lia).
  assert (EB : exists base, mapM (fun nd : nat * nat => tget (h_hom P) (cp - 1) (fst nd) (snd nd)) pos = Ok base).
  { apply mapM_total. intros x Hx. destruct (Hp x Hx) as (i & _ & -> & A & B). cbn [fst snd]. apply (sh_hom _ _ _ _ SH); clear - A B Hcp Hcs Hd; [lia|eapply Nat.lt_le_trans; eassumption|eapply Nat.le_lt_trans; [apply Nat.le_sub_l|exact Hd]]. }
  destruct EB as (base & EB). rewrite EB. cbn [bind]. apply mapM_Ok in EB. destruct EB as [Lb Hb].
  assert (Base : forall i, (i < length pos)%nat -> tget (h_hom P) (cp - 1) (n + i * cp) (d - i * (cp - 1)) = Ok (nth i base empty_basis)).
  { intros i Hi. specialize (Hb i (0, 0)%nat empty_basis Hi). cbv beta in Hb. destruct (Pos i Hi) as (E0 & _). rewrite E0 in Hb. exact Hb. }
  assert (ED : exists diffs, mapM (fun nd : nat * nat => D <- high_differential rnd S P (fst nd) (snd nd) cp ;; Ok (match D with Some B => B | None => Mat 0 [] end)) (tl pos) = Ok diffs).
  { apply mapM_total. intros x Hx.
    assert (Hx' : exists i, (0 < i < length pos)%nat /\ x = ((n + i * cp)%nat, (d - i * (cp - 1))%nat)).
    { destruct pos as [|y pos'] eqn:Ep; [destruct Hx|]. cbn [tl] in Hx. apply (In_nth _ _ (0, 0)%nat) in Hx. destruct Hx as (i & Hi & <-). exists (Datatypes.S i). split; [cbn [length]; lia|].
      destruct (Pos (Datatypes.S i)) as (X & _); [cbn [length]; lia|]. exact X. }
    destruct Hx' as (i & Hi & ->). destruct (Pos i ltac:(lia)) as (_ & A & B). cbn [fst snd]. unfold high_differential. rewrite (Base i) by lia. cbn [bind].
    destruct (Nat.eqb_spec (b_dim (nth i base empty_basis)) 0) as [Z0|Z0]; [cbn [bind]; eauto|].
    pose proof (Base i ltac:(lia)) as BI.
    assert (H0 : (d - i * (cp - 1) = 0)%nat). { destruct (Nat.eq_dec (d - i * (cp - 1)) 0) as [|X]; [assumption|]. destruct (proj1 (HT1 _ (d - i * (cp - 1))%nat ltac:(lia)) _ BI) as [Y _]. contradiction. }
    rewrite H0 in BI |- *. destruct (HR _ _ BI ltac:(lia)) as (F1 & F2 & F3 & F4 & R & TR & R1 & R2 & FR). rewrite TR. cbn [bind].
    rewrite (nth_err_nth R (cp - 1) (@nil lentry)) by (rewrite R2; assert (cp <= i * cp)%nat by nia; lia). cbn [bind]. unfold birth_radii. rewrite F1. cbn [bind]. replace (0 + cp - 1)%nat with (cp - 1)%nat by lia.
    destruct (cdl (n + i * cp - cp) (cp - 1) (nth (cp - 1) R []) (map fst (b_bars (nth i base empty_basis)))) as (Bm & l & Ec & _); [lia|apply F2; nia|nia|]. rewrite Ec. cbn [bind].
    rewrite (calm_lift P (n + i * cp - cp) (cp - 1)) by (auto; nia). cbn [bind]. eauto. }
  destruct ED as (diffs & ED). rewrite ED. cbn [bind]. pose proof (mapM_Ok _ _ _ ED) as [LD _].
  assert (EM : exists Hom Im Pre, module_persistence_homology rnd (Mat 0 [] :: diffs) base (s_p S) = Ok (Hom, Im, Pre) /\ forall x, In x Pre -> x = None).
  { destruct base as [|B0 base']; [cbn [length] in Lb; lia|]. apply mph_apart.
    - cbn [length]. destruct pos; cbn [tl length] in *; lia.
    - destruct (Nat.eq_dec d 0) as [->|Hd0].
      + left. split.
        * destruct base' as [|B1 base'']; [reflexivity|]. cbn [length] in Lb. destruct (Pos 1%nat ltac:(lia)) as (_ & _ & X). lia.
        * pose proof (Base 0%nat Lpos) as X. rewrite Nat.mul_0_l, Nat.add_0_r, Nat.sub_0_r in X. apply (HF _ _ X).
      + right. pose proof (Base 0%nat Lpos) as X. rewrite Nat.mul_0_l, Nat.add_0_r, Nat.sub_0_r in X. apply (proj1 (HT1 n d ltac:(lia)) _ X).
    - intros e He. right. cbn [length] in Lb. destruct (Pos (Datatypes.S e) ltac:(lia)) as (_ & _ & X). apply (proj1 (HT1 _ (d - e * (cp - 1))%nat ltac:(nia)) _ (Base e ltac:(lia))). }
  destruct EM as (Hom & Im & Pre & EM & HPre). rewrite EM. cbn [bind].
  pose proof (mph_over_zero _ _ _ _ _ _ _ EM) as (LH & LI & LP & Over). pose proof (mph_zero _ _ _ _ _ _ _ EM) as Zero.
  set (outs := combine (combine Hom Im) Pre).
  assert (Lo : length outs = length pos) by (unfold outs; rewrite !combine_length; lia).
  destruct (add_output_total np cs m outs P n d cp SH ltac:(lia) Hd) as (P1 & EA & SH1); [intros i Hi; rewrite Lo in Hi; destruct (Pos i Hi) as (_ & X & _); lia|].
  rewrite EA. cbn [bind]. pose proof (add_output_reps _ _ _ _ _ _ EA) as S4.
  assert (HP1 : pre_ok P1) by (apply (add_output_pre cp _ _ _ _ _ EA); [intros [[h i] pre] Ho; apply in_combine_r in Ho; cbn [snd]; auto|exact HP]).
  destruct (add_output_at cp (proj1 Hcp) _ _ _ _ _ EA) as [A1 A2]. rewrite Lo in A2.
  assert (Out : forall i, (i < length pos)%nat -> nth_error outs i = Some (nth i Hom empty_basis, nth i Im empty_basis, nth i Pre None)) by (intros i Hi; apply nth_combine3; lia).
  assert (W : forall i, (i < length pos)%nat -> tget (h_hom P1) cp (n + i * cp) (d - i * (cp - 1)) = Ok (nth i Hom empty_basis)) by (intros i Hi; apply (A1 i _ _ _ (Out i Hi))).
  assert (Calm : forall i, (i < length pos)%nat -> (0 < d - i * (cp - 1))%nat -> b_dim (nth i Hom empty_basis) = 0%nat).
  { intros i Hi Hdi. pose proof (proj1 (HT1 _ (d - i * (cp - 1))%nat Hdi) _ (Base i Hi)) as [Z1 Z2]. apply (Zero i); [lia|exact Z1|exact Z2]. }
  assert (Zr : forall i, (i < length pos)%nat -> (d - i * (cp - 1) = 0)%nat -> b_dim (nth i base empty_basis) = 0%nat -> b_dim (nth i Hom empty_basis) = 0%nat).
  { intros i Hi H0 Z0. pose proof (Base i Hi) as X. rewrite H0 in X. pose proof (HF _ _ X) as [Lp _]. rewrite Z0 in Lp. destruct (b_bars (nth i base empty_basis)) eqn:Eb; [|discriminate]. apply (Zero i); [lia|exact Z0|exact Eb]. }
  assert (Cp : forall i, (0 < i < length pos)%nat -> (0 < b_dim (nth i base empty_basis))%nat -> nth i Hom empty_basis = nth i base empty_basis).
  { intros i Hi Hpos. destruct i as [|i]; [lia|]. apply Over; [lia|exact Hpos|]. destruct (Pos (Datatypes.S i) ltac:(lia)) as (_ & _ & Y).
    apply (proj1 (HT1 _ (d - i * (cp - 1))%nat ltac:(nia)) _ (Base i ltac:(lia))). }
  assert (HeadV : d = 0%nat -> (0 < b_dim (nth 0 base empty_basis))%nat -> nth 0 Hom empty_basis = vsort rnd (nth 0 base empty_basis) /\ proper (nth 0 base empty_basis)).
  { intros Hd0 Hpos. destruct base as [|B0 base']; [cbn [length] in Lb; lia|]. cbn [nth] in *.
    assert (base' = []) as ->. { destruct base' as [|B1 base'']; [reflexivity|]. cbn [length] in Lb. destruct (Pos 1%nat ltac:(lia)) as (_ & _ & X). lia. }
    assert (PB0 : proper B0). { pose proof (Base 0%nat Lpos) as X. rewrite Nat.mul_0_l, Nat.add_0_r, Nat.sub_0_r, Hd0 in X. apply (HF _ _ X). }
    destruct (mph_column _ _ _ _ _ _ _ _ EM PB0 ltac:(intros X [])) as (H & I & pre & os & C1 & _ & _ & _ & C5).
    pose proof (Out 0%nat Lpos) as X. unfold outs in X. rewrite C1 in X. cbn [nth_error] in X. injection X as X1 _ _. rewrite <- X1. split; [apply C5; exact Hpos|exact PB0]. }
  (* a place of row 0 *)
  assert (Place : forall i H, (i < length pos)%nat -> (d - i * (cp - 1) = 0)%nat -> H = nth i Hom empty_basis -> (0 < b_dim H)%nat ->
    b_flat H = false /\ (forall n', (n' < n + i * cp)%nat -> ne n') /\ ((0 < n + i * cp)%nat -> (b_dim H <= nrows (b_coords H))%nat) /\ ncols (b_coords H) = b_dim H /\
    exists R, tget (h_reps P) (cp - 1) (n + i * cp) 0 = Ok R /\ R <> [] /\ (length R = 1 + Nat.min (cp - 1) (n + i * cp))%nat /\
      exists R', mapM (fun c => sums c (mtr (b_coords H))) R = Ok R' /\ length R' = length R /\ Forall (refs_below (b_dim H)) R').
  { intros i H Hi H0 -> Hpos. pose proof (Base i Hi) as BI. rewrite H0 in BI.
    assert (Hb0 : (0 < b_dim (nth i base empty_basis))%nat) by (destruct (Nat.eq_dec (b_dim (nth i base empty_basis)) 0) as [X|X]; [rewrite (Zr i Hi H0 X) in Hpos; lia|lia]).
    destruct (HR _ _ BI Hb0) as (F1 & F2 & F3 & F4 & R & TR & R1 & R2 & FR). destruct i as [|i].
    - destruct (HeadV ltac:(lia) Hb0) as [HV PB]. rewrite HV. destruct (vsort_dims rnd _ PB) as [V1 V2]. split; [reflexivity|]. split; [exact F2|]. split; [rewrite V1; cbn [vsort b_dim]; lia|]. split; [exact V2|].
      exists R. split; [exact TR|]. split; [exact R1|]. split; [exact R2|]. apply (sums_below (vsort rnd (nth 0 base empty_basis))); [rewrite V1; cbn [vsort b_dim]; lia|exact V2|exact FR].
    - rewrite (Cp (Datatypes.S i) ltac:(lia) Hb0). split; [exact F1|]. split; [exact F2|]. split; [exact F3|]. split; [exact F4|].
      exists R. split; [exact TR|]. split; [exact R1|]. split; [exact R2|]. apply sums_below; [apply F3; nia|assumption|assumption]. }
  assert (Fold : forall l, (forall x, In x l -> In x pos) -> NoDup l -> forall Q, shape np cs m Q -> h_hom Q = h_hom P1 -> pre_ok Q -> (forall n' d', tget (h_reps Q) (cp - 1) n' d' = tget (h_reps P) (cp - 1) n' d') ->
    calm Q 1 ->
    exists Q', foldM (fun P nd => compute_higher_representatives rnd S P (fst nd) (snd nd) cp) l Q = Ok Q' /\ shape np cs m Q' /\ h_hom Q' = h_hom P1 /\ pre_ok Q' /\
      (forall n' d', ~ In (n', d') l -> tget (h_reps Q') cp n' d' = tget (h_reps Q) cp n' d') /\
      forall n' H, In (n', 0%nat) l -> tget (h_hom P1) cp n' 0 = Ok H -> (0 < b_dim H)%nat -> exists rc, tget (h_reps Q') cp n' 0 = Ok rc /\ rc <> [] /\ (length rc = 1 + Nat.min cp n')%nat /\ Forall (refs_below (b_dim H)) rc).
  { induction l as [|x l IH]; intros Hl ND Q SQ Q1 QP Q2 QC; [exists Q; cbn [foldM]; split; [reflexivity|]; split; [exact SQ|]; split; [exact Q1|]; split; [exact QP|]; split; [reflexivity|]; intros n' H []|].
    cbn [foldM]. destruct (Hp x (Hl _ (or_introl eq_refl))) as (i & Hi & Ex & X1 & X2).
    assert (Good : exists rc, compute_higher_representatives rnd S Q (fst x) (snd x) cp = set_reps Q cp (fst x) (snd x) rc /\
      forall H, snd x = 0%nat -> tget (h_hom P1) cp (fst x) 0 = Ok H -> (0 < b_dim H)%nat -> rc <> [] /\ (length rc = 1 + Nat.min cp (fst x))%nat /\ Forall (refs_below (b_dim H)) rc).
    { rewrite Ex. cbn [fst snd]. pose proof (W i Hi) as Wi. destruct (Nat.eq_dec (b_dim (nth i Hom empty_basis)) 0) as [Z0|Z0].
      - exists []. split; [unfold compute_higher_representatives; rewrite Q1, Wi; cbn [bind]; rewrite Z0; reflexivity|].
        intros H Hs TH Hpos. rewrite Hs in Wi. rewrite Wi in TH. injection TH as <-. lia.
      - assert (H0 : (d - i * (cp - 1) = 0)%nat). { destruct (Nat.eq_dec (d - i * (cp - 1)) 0) as [|Y]; [assumption|]. rewrite (Calm i Hi) in Z0 by lia. contradiction. }
        rewrite H0 in *. destruct (Place i _ Hi H0 eq_refl ltac:(lia)) as (_ & F2 & _ & _ & R & TR & R1 & R2 & ES).
        destruct (reps_total Q (n + i * cp) cp (nth i Hom empty_basis) R) as (rc & Er & G1 & G2 & G3); auto; [|rewrite Q1; exact Wi|lia|rewrite Q2; exact TR|].
        + destruct i as [|i]; [right; lia|left; nia].
        + exists rc. split; [exact Er|]. intros H _ TH _. rewrite Wi in TH. injection TH as <-. auto. }
    destruct Good as (rc & Er & Gr). rewrite Er.
    destruct (set_reps_total np cs m Q cp (fst x) (snd x) rc SQ) as (Q' & EQ & SQ'); [lia|rewrite Ex; cbn [fst]; eapply Nat.lt_le_trans; eassumption|rewrite Ex; cbn [snd]; eapply Nat.le_lt_trans; [apply Nat.le_sub_l|exact Hd]|]. rewrite EQ. cbn [bind].
    pose proof EQ as EQ2. unfold set_reps in EQ2. destruct (tset (h_reps Q) cp (fst x) (snd x) rc) as [t|] eqn:Et; [|discriminate]. cbn [bind] in EQ2.
    inversion ND as [|? ? Nx ND']; subst.
    destruct (IH ltac:(intros; apply Hl; right; assumption) ND' Q' SQ') as (Q'' & E'' & S'' & H'' & P'' & O'' & R'').
    - injection EQ2 as <-. exact Q1.
    - injection EQ2 as <-. exact QP.
    - intros n' d'. rewrite (set_reps_get _ _ _ _ _ _ EQ). destruct (Nat.eqb_spec (cp - 1) cp) as [Y|_]; [lia|]. apply Q2.
    - injection EQ2 as <-. exact QC.
    - exists Q''. split; [exact E''|]. split; [exact S''|]. split; [exact H''|]. split; [exact P''|]. split.
      + intros n' d' Hni. rewrite O'' by (intros Y; apply Hni; right; exact Y). rewrite (set_reps_get _ _ _ _ _ _ EQ). cbn [fst snd].
        destruct (Nat.eqb_spec n' (n + i * cp)) as [->|]; [|rewrite andb_false_r; reflexivity]. destruct (Nat.eqb_spec d' (d - i * (cp - 1))) as [->|]; [|rewrite andb_false_r; reflexivity]. exfalso. apply Hni. left. reflexivity.
      + intros n' H [Hx|Hx] TH Hpos; [|apply R''; assumption]. injection Hx as Hx1 Hx2. subst n'. rewrite O'' by (rewrite <- Hx2; exact Nx).
        exists rc. rewrite (set_reps_get _ _ _ _ _ _ EQ). cbn [fst snd] in *. rewrite Hx2, !Nat.eqb_refl. cbn [andb]. split; [reflexivity|]. apply (Gr H); auto. }
  assert (NDp : NoDup pos).
  { apply (NoDup_nth pos (0, 0)%nat). intros i j Hi Hj E. destruct (Pos i Hi) as (Ei & _). destruct (Pos j Hj) as (Ej & _). rewrite Ei, Ej in E. injection E as E _. nia. }
  destruct (Fold pos ltac:(auto) NDp P1 SH1 eq_refl HP1) as (P' & EP & SP & H1 & HP' & O1 & R1).
  { intros. rewrite S4. reflexivity. }
  { destruct (Nat.eq_dec cp 1) as [|X]; [lia|]. intros n' d' Hd'. destruct (A2 1%nat n' d' ltac:(left; lia)) as (-> & _ & ->). apply HC1. exact Hd'. }
  rewrite EP. exists P'. split; [reflexivity|]. split; [exact SP|]. split; [exact HP'|].
  intros n' H TH Hpos. rewrite H1 in TH.
  destruct (in_dec (fun x y : nat * nat => ltac:(decide equality; apply Nat.eq_dec)) (n', 0%nat) pos) as [Hin|Hin].
  - destruct (Hp _ Hin) as (i & Hi & Ex & _ & _). injection Ex as Ex1 Ex2. pose proof (W i Hi) as Wi. rewrite <- Ex1, <- Ex2, TH in Wi. injection Wi as Wi.
    destruct (Place i H Hi ltac:(lia) Wi Hpos) as (F1 & F2 & F3 & F4 & _). rewrite Ex1. split; [exact F1|]. split; [exact F2|]. split; [exact F3|]. split; [exact F4|].
    rewrite <- Ex1. apply (R1 n' H Hin TH Hpos).
  - destruct (A2 cp n' 0%nat) as (X & _).
    { right. intros i Hi E. apply Hin. rewrite E. destruct (Pos i Hi) as (<- & _). apply nth_In. exact Hi. }
    rewrite X in TH. destruct (HR2 n' H TH Hpos) as (F1 & F2 & F3 & F4 & R & TR & G). split; [exact F1|]. split; [exact F2|]. split; [exact F3|]. split; [exact F4|]. exists R.
    split; [|exact G]. rewrite O1 by exact Hin. rewrite S4. exact TR.
Qed.

Lemma rep_ok_off k j P Q : j <> k -> same_off k P Q -> rep_ok P j -> rep_ok Q j.
Proof. intros Hj HS H n H0 E Hpos. destruct (HS j n 0%nat Hj) as (A & _ & B & _). rewrite A in E. destruct (H n H0 E Hpos) as (F1 & F2 & F3 & F4 & R & TR & G). repeat (split; [assumption|]). exists R. rewrite B. auto. Qed.

(** A page. *)
Lemma rows_total cp : (2 <= cp < np)%nat -> forall l P, NoDup l -> (forall x, In x l -> (fst x < cp)%nat /\ (snd x < m)%nat) -> shape np cs m P -> calm P 1 ->
  row_proper P (cp - 1) -> calm P (cp - 1) -> calm P cp -> row_proper P cp -> pre_ok P -> rep_ok P (cp - 1) -> rep_ok P cp ->
  exists P', foldM (higher_page_row rnd S cp) l P = Ok P' /\ shape np cs m P' /\ pre_ok P' /\ rep_ok P' cp.
Proof.
  intros Hcp. induction l as [|[n d] l IH]; intros P ND Hl SH HC1 HF HT1 HT HF2 HP HR HR2; [cbn [foldM]; eauto|].
  cbn [foldM]. destruct (Hl (n, d) (or_introl eq_refl)) as [Hn Hd]. cbn [fst snd] in Hn, Hd.
  destruct (row_total P n d cp Hcp Hn Hd SH HC1 HF HT1 HT HF2 HP HR HR2) as (P1 & E1 & S1 & P1p & R1). rewrite E1. cbn [bind].
  destruct (row_step rnd S cp P n d P1 (proj1 Hcp) Hn E1 HF HT1 HT HF2) as (O1 & C1 & F1 & _).
  inversion ND; subst. apply IH; auto.
  - intros x Hx. apply Hl. right. exact Hx.
  - apply (calm_off cp 1 P P1); [lia|exact O1|exact HC1].
  - apply (row_proper_off cp (cp - 1) P P1); [lia|exact O1|exact HF].
  - apply (calm_off cp (cp - 1) P P1); [lia|exact O1|exact HT1].
  - apply (rep_ok_off cp (cp - 1) P P1); [lia|exact O1|exact HR].
Qed.

(** All pages. *)
Theorem row_pages_total : forall j cp P, (2 <= cp)%nat -> (cp + j <= np)%nat -> shape np cs m P -> calm P 1 ->
  (forall k, (cp - 1 <= k)%nat -> calm P k) -> (forall k, (cp - 1 <= k)%nat -> row_proper P k) -> pre_ok P -> (forall k, (cp - 1 <= k)%nat -> rep_ok P k) ->
  exists P', foldM (fun P cp => foldM (higher_page_row rnd S cp) (flat_map (fun n => map (fun d => (n, d)) (seq 0 m)) (seq 0 cp)) P) (seq cp j) P = Ok P' /\ shape np cs m P' /\ rep_ok P' (cp + j - 1).
Proof.
  induction j as [|j IH]; intros cp P Hcp Hj SH HC1 HC HF HP HR; [exists P; split; [reflexivity|]; split; [exact SH|]; apply HR; lia|]. replace (cp + Datatypes.S j - 1)%nat with (Datatypes.S cp + j - 1)%nat by lia. cbn [seq foldM].
  set (l := flat_map (fun n => map (fun d => (n, d)) (seq 0 m)) (seq 0 cp)).
  assert (Hl : forall x, In x l -> (fst x < cp)%nat /\ (snd x < m)%nat).
  { intros x Hx. unfold l in Hx. apply in_flat_map in Hx. destruct Hx as (n & Hn & Hx). apply in_map_iff in Hx. destruct Hx as (d & <- & Hd). apply in_seq in Hn, Hd. cbn [fst snd]. lia. }
  assert (ND : NoDup l) by (apply starts_NoDup).
  pose proof (HF (cp - 1)%nat ltac:(lia)) as F0. pose proof (HF cp ltac:(lia)) as F0'. pose proof (HC (cp - 1)%nat ltac:(lia)) as C0. pose proof (HC cp ltac:(lia)) as C0'.
  destruct (rows_total cp ltac:(lia) l P ND Hl SH HC1 F0 C0 C0' F0' HP (HR (cp - 1)%nat ltac:(lia)) (HR cp ltac:(lia))) as (P1 & E1 & S1 & P1p & R1).
  rewrite E1. cbn [bind].
  destruct (row_steps rnd S cp Hcp l P P1 ND ltac:(intros x Hx; apply Hl; exact Hx) E1 F0 C0 C0' F0') as (O1 & C1 & F1 & _).
  apply IH; auto; try lia.
  - apply (calm_off cp 1 P P1); [lia|exact O1|exact HC1].
  - intros k Hk. destruct (Nat.eq_dec k cp) as [->|Hne]; [exact C1|]. apply (calm_off cp k P P1); [exact Hne|exact O1|apply HC; lia].
  - intros k Hk. destruct (Nat.eq_dec k cp) as [->|Hne]; [exact F1|]. apply (row_proper_off cp k P P1); [exact Hne|exact O1|apply HF; lia].
  - intros k Hk. destruct (Nat.eq_dec k cp) as [->|Hne]; [exact R1|]. apply (rep_ok_off cp k P P1); [exact Hne|exact O1|apply HR; lia].
Qed.
End Higher.
