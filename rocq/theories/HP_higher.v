(** * The pages from the second on are computed without failure when only two columns have classes *)
From Coq Require Import QArith.
From Verif Require Import Base ListX SortX Lin Gauss_model Gauss_arith Gauss_col Gauss_solve Gauss_bar Basis_model Basis_props PH_model PH_loop Simp_model Simp_lists LC_model Spec_LC LC_props SS_model
  IK_model IK_post IK_mph MPH_props Spec_IK Cover_model HP_model HP_table HP_row HP_gens HP_second HP_zero HP_pages HP_two HP_shape.
From Coq Require Import Permutation.
Local Open Scope Z_scope.
Local Notation e0 := (LEntry [] LNil).

Lemma empty_over_total B : exists e, empty_over B = Ok e.
Proof. unfold empty_over, mk_basis, mk_coords. cbn. eauto. Qed.

Lemma mph_loop_total rnd D Bs p d : forall Im_d Hom Im Pre, (d < length Bs)%nat -> (d < length D)%nat -> (forall e, (e < d)%nat -> b_dim (nth (Datatypes.S e) Bs empty_basis) = 0%nat) ->
  exists x, mph_loop rnd D Bs p d Im_d Hom Im Pre = Ok x.
Proof.
  induction d as [|d IH]; intros Im_d Hom Im Pre Hd HD Hz; cbn [mph_loop]; [eauto|].
  rewrite (nth_err_nth Bs (Datatypes.S d) empty_basis) by exact Hd. cbn [bind]. rewrite (nth_err_nth Bs d empty_basis) by lia. cbn [bind].
  rewrite (nth_err_nth D (Datatypes.S d) (Mat 0 [])) by exact HD. cbn [bind]. unfold mph_step. rewrite Hz by lia. cbn [Nat.eqb].
  destruct (empty_over_total (nth d Bs empty_basis)) as (i & ->). cbn [bind]. destruct (empty_over_total (nth (Datatypes.S d) Bs empty_basis)) as (h & ->). cbn [bind].
  apply IH; [lia|lia|]. intros e He. apply Hz. lia.
Qed.

Lemma mident_mk B : proper B -> exists K, mk_basis false (b_bars B) (Some B) (mident (b_dim B)) false false None = Ok K.
Proof.
  intros [Hd Hb]. unfold mk_basis, mk_coords. cbn [andb]. rewrite mident_ncols. destruct (Nat.ltb_spec 0 (b_dim B)); [|cbn [bind mk_brk]; eauto].
  cbn [nrows mident]. rewrite Nat.eqb_refl, <- Hd, Nat.eqb_refl. cbn [negb bind mk_brk]. eauto.
Qed.

Lemma mph_total rnd D B Bs p : length D = Datatypes.S (length Bs) -> proper B \/ b_dim B = 0%nat -> (forall X, In X Bs -> b_dim X = 0%nat) ->
  exists Hom Im Pre, module_persistence_homology rnd D (B :: Bs) p = Ok (Hom, Im, Pre) /\ length Hom = Datatypes.S (length Bs) /\ length Im = Datatypes.S (length Bs) /\ length Pre = Datatypes.S (length Bs).
Proof.
  intros LD HB Hz.
  assert (X : exists x, module_persistence_homology rnd D (B :: Bs) p = Ok x).
  { unfold module_persistence_homology. set (Bs' := B :: Bs).
    rewrite (nth_err_nth Bs' (length Bs' - 1) empty_basis) by (unfold Bs'; cbn [length]; lia). cbn [bind].
    destruct (empty_over_total (nth (length Bs' - 1) Bs' empty_basis)) as (e & Ee). rewrite Ee. cbn [bind].
    assert (Hz' : forall k, (k < length Bs' - 1)%nat -> b_dim (nth (Datatypes.S k) Bs' empty_basis) = 0%nat).
    { intros k Hk. cbn [nth Bs']. apply Hz. apply nth_In. unfold Bs' in Hk. cbn [length] in Hk. lia. }
    destruct (mph_loop_total rnd D Bs' p (length Bs' - 1) e [] [] []) as ([[Hom Im] Pre] & EL); [unfold Bs'; cbn [length]; lia|unfold Bs'; cbn [length]; lia|exact Hz'|].
    rewrite EL. cbn [bind]. unfold empty_over in Ee. apply mk_basis_bars in Ee. destruct Ee as [_ Ee]. cbn [filter length] in Ee.
    pose proof (mph_loop_im _ _ _ _ _ _ _ _ _ _ _ _ EL Ee Hz') as HIm.
    destruct (Nat.eqb_spec (b_dim B) 0) as [Z0|Z0]; [cbn [bind]; eauto|]. destruct HB as [HB|HB]; [|contradiction].
    destruct (mident_mk B HB) as (K & EK). rewrite EK. cbn [bind]. destruct (identity_sorted rnd B K HB EK) as (o & Eo). rewrite Eo. cbn [bind].
    assert (LI : exists I0 I, Im = I0 :: I).
    { clear - EL. revert EL. generalize (@nil basis) at 1. generalize (@nil basis). generalize (@nil (option mat)). generalize e. induction (length Bs' - 1)%nat as [|d IH]; intros e0 l1 l2 l3 E; cbn [mph_loop] in E.
      - injection E as _ <- _. eauto.
      - destruct (nth_err Bs' (Datatypes.S d)); [|discriminate]. cbn [bind] in E. destruct (nth_err Bs' d); [|discriminate]. cbn [bind] in E. destruct (nth_err D (Datatypes.S d)); [|discriminate]. cbn [bind] in E.
        destruct (mph_step _ _ _ _ _ _) as [[[i h] pre]|]; [|discriminate]. cbn [bind] in E. eapply IH. exact E. }
    destruct LI as (I0 & I & ->). change (nth_err (I0 :: I) 0) with (Ok I0). cbn [bind nth] in *.
    unfold quotient. rewrite HIm. cbn [Nat.eqb bind]. eauto. }
  destruct X as ([[Hom Im] Pre] & E). exists Hom, Im, Pre. split; [exact E|]. pose proof (mph_over_zero _ _ _ _ _ _ _ E) as (LH & LI & LP & _). cbn [length] in LH, LI, LP. auto.
Qed.

Lemma positions_nth f : forall L n d cp i, (i < length (positions f L n d cp))%nat ->
  fst (nth i (positions f L n d cp) (0, 0)%nat) = (n + i * cp)%nat /\ (n + i * cp < L)%nat /\ (snd (nth i (positions f L n d cp) (0, 0)%nat) <= d)%nat.
Proof.
  induction f as [|f IH]; intros L n d cp i Hi; cbn [positions length] in *; [lia|]. destruct (Nat.ltb_spec n L) as [HL|HL]; [|cbn in Hi; lia].
  destruct i as [|i]; cbn [nth fst snd]; [lia|]. destruct (Nat.leb (cp - 1) d); [|cbn in Hi; lia]. cbn [length] in Hi.
  destruct (IH L (n + cp)%nat (d - (cp - 1))%nat cp i ltac:(lia)) as (A & B & C). split; [lia|]. split; lia.
Qed.

(** What is needed of representatives. *)
Definition repinv (P : pages) (k n d : nat) : Prop :=
  forall H reps, tget (h_hom P) k n d = Ok H -> tget (h_reps P) k n d = Ok reps -> (0 < b_dim H)%nat ->
  ncols (b_coords H) = b_dim H /\ Forall (fun c => (exists ws, good ws c) /\ forall j g, In g (le_ref (nth j c e0)) -> (g < b_dim H)%nat) reps.

Lemma take_ident_dims n o : (forall j, In j o -> (j < n)%nat) -> nrows (take_cols (mident n) o) = n /\ ncols (take_cols (mident n) o) = length o.
Proof. intros _. unfold take_cols, ncols. cbn [nrows cols mident]. split; [reflexivity|apply map_length]. Qed.

Lemma vsort_dims rnd H : proper H -> nrows (b_coords (vsort rnd H)) = b_dim H /\ ncols (b_coords (vsort rnd H)) = b_dim H.
Proof.
  intros [Hd _]. cbn [vsort b_coords]. destruct (take_ident_dims (b_dim H) (sort_order rnd (b_bars H))) as [A B]; [intros j Hj; apply sort_order_lt in Hj; lia|].
  split; [exact A|]. rewrite B, sort_order_length. auto.
Qed.

Lemma sums_all rnd H reps : proper H -> Forall (fun c => (exists ws, good ws c) /\ forall j g, In g (le_ref (nth j c e0)) -> (g < b_dim H)%nat) reps ->
  exists R', mapM (fun c => sums c (mtr (b_coords (vsort rnd H)))) reps = Ok R' /\
    Forall (fun c => (exists ws, good ws c) /\ forall j, le_ref (nth j c e0) = [] \/ le_ref (nth j c e0) = seq 0 (b_dim H)) R'.
Proof.
  intros HP HF. destruct (vsort_dims rnd H HP) as [V1 V2].
  induction HF as [|c reps [(ws & Hw) Hc] _ (R' & E & F)]; [exists []; split; [reflexivity|constructor]|].
  destruct (sums_ok ws (mtr (b_coords (vsort rnd H))) c Hw) as (c' & Ec & Gc & Rc & _).
  { intros k g Hg. destruct (mtr_dims (b_coords (vsort rnd H))) as [_ X]. rewrite X, V1. eauto. }
  exists (c' :: R'). cbn [mapM]. rewrite Ec. cbn [bind]. rewrite E. cbn [bind]. split; [reflexivity|]. constructor; [|exact F]. split; [eauto|].
  intros j. rewrite Rc. destruct (Nat.eqb _ 0); [left; reflexivity|right]. destruct (mtr_dims (b_coords (vsort rnd H))) as [X _]. rewrite X, V2. reflexivity.
Qed.

Lemma higher_row_total rnd S m np cs cp P n d : (2 <= cp < np)%nat -> (np <= length (s_nerve S))%nat -> (length (s_nerve S) <= cs)%nat -> (n < cp)%nat -> (d < m)%nat ->
  shape np cs m P -> first_proper m P (cp - 1) -> thin P (cp - 1) -> thin P cp -> ((n < 2)%nat -> repinv P (cp - 1) n d) ->
  exists P', higher_page_row rnd S cp P (n, d) = Ok P' /\ shape np cs m P'.
Proof.
  intros Hcp Hnp Hcs Hn Hd SH HF HT1 HT HR. unfold higher_page_row. cbn [fst snd]. set (L := length (s_nerve S)) in *. set (pos := positions (1 + L) L n d cp).
  assert (Hp : forall x, In x pos -> (fst x < L)%nat /\ (snd x <= d)%nat /\ (n <= fst x)%nat).
  { intros x Hx. apply (In_nth _ _ (0, 0)%nat) in Hx. destruct Hx as (i & Hi & <-). destruct (positions_nth _ _ _ _ _ _ Hi) as (A & B & C). fold pos in A, C. rewrite A. lia. }
  assert (Epos : exists pos', pos = (n, d) :: pos' /\ forall y, In y pos' -> (n + cp <= fst y)%nat).
  { unfold pos. cbn [Nat.add positions]. destruct (Nat.ltb_spec n L) as [_|X]; [|lia]. eexists. split; [reflexivity|]. intros y Hy. destruct (Nat.leb _ _); [|destruct Hy]. apply positions_tail in Hy. exact Hy. }
  destruct Epos as (pos' & Epos & Hpos).
  assert (EB : exists base, mapM (fun nd : nat * nat => tget (h_hom P) (cp - 1) (fst nd) (snd nd)) pos = Ok base).
  { apply mapM_total. intros x Hx. destruct (Hp x Hx) as (A & B & _). destruct (sh_hom _ _ _ _ SH (cp - 1)%nat (fst x) (snd x)) as (y & Ey); [lia|lia|lia|]. eauto. }
  destruct EB as (base & EB). rewrite EB. cbn [bind].
  assert (ED : exists diffs, mapM (fun nd : nat * nat => D <- high_differential rnd S P (fst nd) (snd nd) cp ;; Ok (match D with Some B => B | None => Mat 0 [] end)) (tl pos) = Ok diffs).
  { apply mapM_total. intros x Hx. rewrite Epos in Hx. cbn [tl] in Hx. assert (Hx' : In x pos) by (rewrite Epos; right; exact Hx).
    destruct (Hp x Hx') as (A & B & _). destruct (sh_hom _ _ _ _ SH (cp - 1)%nat (fst x) (snd x)) as (y & Ey); [lia|lia|lia|].
    specialize (Hpos x Hx). destruct (HT1 (fst x) (snd x) ltac:(lia)) as [T _]. specialize (T y Ey).
    exists (Mat 0 []). unfold high_differential. rewrite Ey. cbn [bind]. rewrite T. cbn [Nat.eqb bind]. reflexivity. }
  destruct ED as (diffs & ED). rewrite ED. cbn [bind].
  pose proof (mapM_Ok _ _ _ ED) as [LD _]. rewrite Epos in LD. cbn [tl] in LD.
  rewrite Epos in EB. cbn [mapM fst snd] in EB. destruct (tget (h_hom P) (cp - 1) n d) as [B0|] eqn:EB0; [|discriminate]. cbn [bind] in EB.
  destruct (mapM _ pos') as [base'|] eqn:EB'; [|discriminate]. cbn [bind] in EB. injection EB as <-.
  pose proof (mapM_Ok _ _ _ EB') as [LB Hb].
  assert (Hbase : forall X, In X base' -> b_dim X = 0%nat).
  { intros X HX. apply (In_nth _ _ empty_basis) in HX. destruct HX as (i & Hi & <-). rewrite LB in Hi.
    specialize (Hb i (0, 0)%nat empty_basis Hi). destruct (HT1 (fst (nth i pos' (0, 0)%nat)) (snd (nth i pos' (0, 0)%nat))) as [T _]; [|apply (T _ Hb)].
    specialize (Hpos _ (nth_In pos' (0, 0)%nat Hi)). lia. }
  assert (Bz : (2 <= n)%nat -> b_dim B0 = 0%nat) by (intros H2; destruct (HT1 n d H2) as [T _]; apply T; exact EB0).
  assert (HB0 : proper B0 \/ b_dim B0 = 0%nat) by (destruct (Nat.lt_ge_cases n 2) as [X|X]; [left; apply (HF n d); auto|right; auto]).
  destruct (mph_total rnd (Mat 0 [] :: diffs) B0 base' (s_p S)) as (Hom & Im & Pre & EM & L1 & L2 & L3); [cbn [length]; lia|exact HB0|exact Hbase|].
  rewrite EM. cbn [bind].
  destruct (add_output_total np cs m (combine (combine Hom Im) Pre) P n d cp SH ltac:(lia) Hd) as (P1 & EA & SH1).
  { intros i Hi. rewrite !combine_length, L1, L2, L3, LB in Hi. assert (Hi' : (i < length pos)%nat) by (rewrite Epos; cbn [length]; lia).
    destruct (positions_nth _ _ _ _ _ _ Hi') as (_ & B & _). lia. }
  rewrite EA. cbn [bind].
  pose proof (add_output_reps _ _ _ _ _ _ EA) as S4.
  (* the head of the outputs *)
  assert (Key : exists H I pre outs, combine (combine Hom Im) Pre = (H, I, pre) :: outs /\ (forall o, In o outs -> b_dim (fst (fst o)) = 0%nat) /\
    (b_dim B0 = 0%nat -> b_dim H = 0%nat) /\ ((0 < b_dim B0)%nat -> H = vsort rnd B0 /\ proper B0)).
  { destruct (Nat.eq_dec (b_dim B0) 0) as [Z0|Z0].
    - pose proof (mph_over_zero _ _ _ _ _ _ _ EM) as (LH & LI & LP & _).
      unfold module_persistence_homology in EM. set (Bs' := B0 :: base') in *.
      destruct (nth_err Bs' (length Bs' - 1)) as [Bt|]; [|discriminate]. cbn [bind] in EM. destruct (empty_over Bt) as [e|] eqn:Ee; [|discriminate]. cbn [bind] in EM.
      destruct (mph_loop _ _ _ _ _ _ _ _ _) as [[[H I] Q]|] eqn:EL; [|discriminate]. cbn [bind] in EM.
      assert (Hz' : forall k, (k < length Bs' - 1)%nat -> b_dim (nth (Datatypes.S k) Bs' empty_basis) = 0%nat).
      { intros k Hk. cbn [nth Bs']. apply Hbase. apply nth_In. unfold Bs' in Hk. cbn [length] in Hk. lia. }
      pose proof (fun k Hk => proj2 (mph_loop_zero _ _ _ _ _ _ _ _ _ _ _ _ EL k Hk (Hz' k Hk))) as HHom.
      rewrite Z0 in EM. cbn [Nat.eqb bind] in EM. injection EM as <- <- <-.
      destruct I as [|I0 I]; [cbn in LI; unfold Bs' in LI; cbn in LI; lia|]. cbn [combine]. exists B0, I0, None, (combine (combine H I) Q). split; [reflexivity|].
      split; [|split; [auto|lia]]. intros [[h i] q] Ho. apply in_combine_l in Ho. apply in_combine_l in Ho. cbn [fst]. apply (In_nth _ _ empty_basis) in Ho. destruct Ho as (k & Hk & <-). apply HHom.
      unfold Bs' in *. cbn [length] in *. lia.
    - destruct HB0 as [HB0|HB0]; [|contradiction]. destruct (mph_column _ _ _ _ _ _ _ _ EM HB0 Hbase) as (H & I & pre & outs & C1 & _ & C3 & C4 & C5). exists H, I, pre, outs.
      split; [exact C1|]. split; [exact C3|]. split; [intros X; contradiction|]. intros X. split; [apply C5; exact X|exact HB0]. }
  destruct Key as (H & I & pre & outs & C1 & C2 & C3 & C4). rewrite C1 in EA.
  destruct (add_output_head _ _ _ _ _ _ _ _ _ (proj1 Hcp) EA) as ((A1 & _ & _) & _ & A3).
  assert (T1 : thin P1 cp).
  { apply A3; auto. destruct (Nat.lt_ge_cases n 2) as [X|X]; [left; exact X|right]. apply C3. apply Bz. exact X. }
  match goal with |- exists P', foldM ?f ?l ?s = Ok P' /\ _ => destruct (foldM_total f (fun Q => shape np cs m Q /\ h_hom Q = h_hom P1 /\ forall n' d', tget (h_reps Q) (cp - 1) n' d' = tget (h_reps P) (cp - 1) n' d') l s) as (P' & EP & SP & _) end.
  - split; [exact SH1|]. split; [reflexivity|]. intros. rewrite S4. reflexivity.
  - intros Q x Hx (SQ & Q1 & Q2). destruct (Hp x Hx) as (X1 & X2 & X3).
    assert (Good : exists rc, compute_higher_representatives rnd S Q (fst x) (snd x) cp = set_reps Q cp (fst x) (snd x) rc).
    { unfold compute_higher_representatives. rewrite Q1. rewrite Epos in Hx. destruct Hx as [<-|Hx]; cbn [fst snd].
      - rewrite A1. cbn [bind]. destruct (Nat.eqb_spec (b_dim H) 0) as [Z0|Z0]; [eauto|].
        assert (Hpos0 : (0 < b_dim B0)%nat) by (destruct (Nat.eq_dec (b_dim B0) 0) as [Y|Y]; [specialize (C3 Y); lia|lia]).
        destruct (C4 Hpos0) as [-> HPB].
        assert (Hn2 : (n < 2)%nat) by (destruct (Nat.lt_ge_cases n 2) as [Y|Y]; [exact Y|specialize (Bz Y); lia]).
        rewrite Q2. destruct (sh_reps _ _ _ _ SH (cp - 1)%nat n d) as (reps & Er); [lia|lia|exact Hd|]. rewrite Er. cbn [bind].
        destruct (HR Hn2 B0 reps EB0 Er Hpos0) as [_ HFr].
        destruct (sums_all rnd B0 reps HPB HFr) as (R' & ER & _). rewrite ER. cbn [bind].
        destruct (Nat.ltb_spec n cp) as [_|Y]; [|lia]. eauto.
      - specialize (Hpos x Hx). destruct (sh_hom _ _ _ _ SH1 cp (fst x) (snd x)) as (y & Ey); [lia|lia|lia|]. rewrite Ey. cbn [bind].
        destruct (T1 (fst x) (snd x) ltac:(lia)) as [T _]. rewrite (T y Ey). cbn [Nat.eqb]. eauto. }
    destruct Good as (rc & ->). destruct (set_reps_total np cs m Q cp (fst x) (snd x) rc SQ ltac:(lia) ltac:(lia) ltac:(lia)) as (Q' & EQ & SQ'). exists Q'. split; [exact EQ|]. split; [exact SQ'|].
    split.
    + unfold set_reps in EQ. destruct (tset (h_reps Q) cp (fst x) (snd x) rc); [|discriminate]. injection EQ as <-. exact Q1.
    + intros n' d'. rewrite (set_reps_get _ _ _ _ _ _ EQ). destruct (Nat.eqb_spec (cp - 1) cp) as [Y|_]; [lia|]. apply Q2.
  - fold pos. rewrite EP. eauto.
Qed.

(** References are all or none. *)
Definition fullrefs (N : nat) (reps : list chains) : Prop :=
  Forall (fun c => (exists ws, good ws c) /\ forall j, le_ref (nth j c e0) = [] \/ le_ref (nth j c e0) = seq 0 N) reps.

Lemma stp_refs rnd P k n d : (forall H, tget (h_hom P) (k - 1) n d = Ok H -> proper H) -> stp rnd P k n d -> repinv P (k - 1) n d ->
  repinv P k n d /\ forall H' R', tget (h_hom P) k n d = Ok H' -> tget (h_reps P) k n d = Ok R' -> fullrefs (b_dim H') R'.
Proof.
  intros HF (H & H' & I' & R' & T1 & T2 & _ & _ & _ & T6 & C1 & C2) HR. specialize (HF H T1).
  assert (X : forall R0, R0 = R' -> ncols (b_coords H') = b_dim H' \/ b_dim H' = 0%nat).
  { intros R0 _. destruct (Nat.eq_dec (b_dim H) 0) as [Z0|Z0]; [right; destruct (C1 Z0) as [-> _]; exact Z0|left]. destruct (C2 ltac:(lia)) as [-> _]. apply (proj2 (vsort_dims rnd H HF)). }
  assert (F : fullrefs (b_dim H') R').
  { destruct (Nat.eq_dec (b_dim H) 0) as [Z0|Z0]; [destruct (C1 Z0) as [_ ->]; constructor|]. destruct (C2 ltac:(lia)) as [-> (R & TR & ER)].
    destruct (HR H R T1 TR ltac:(lia)) as [_ HFR]. destruct (sums_all rnd H R HF HFR) as (R2 & E2 & F2). rewrite E2 in ER. injection ER as <-. exact F2. }
  split.
  - intros H2 R2 E2 F2 Hpos. rewrite T2 in E2. injection E2 as <-. rewrite T6 in F2. injection F2 as <-. split; [destruct (X R' eq_refl); [assumption|lia]|].
    apply (Forall_impl _ (P := fun c => (exists ws, good ws c) /\ forall j, le_ref (nth j c e0) = [] \/ le_ref (nth j c e0) = seq 0 (b_dim H'))); [|exact F].
    intros c [W Hc]. split; [exact W|]. intros j g Hg. destruct (Hc j) as [Y|Y]; rewrite Y in Hg; [destruct Hg|]. apply in_seq in Hg. lia.
  - intros H2 R2 E2 F2. rewrite T2 in E2. injection E2 as <-. rewrite T6 in F2. injection F2 as <-. exact F.
Qed.

Lemma repinv_off k j P Q n d : j <> k -> same_off k P Q -> repinv P j n d -> repinv Q j n d.
Proof. intros Hj HS H. destruct (HS j n d Hj) as (A & _ & B & _). intros H0 R E1 E2. rewrite A in E1. rewrite B in E2. apply H; assumption. Qed.

Lemma page_total rnd S m np cs cp : (2 <= cp < np)%nat -> (np <= length (s_nerve S))%nat -> (length (s_nerve S) <= cs)%nat ->
  forall l P, NoDup l -> (forall x, In x l -> (fst x < cp)%nat /\ (snd x < m)%nat) -> shape np cs m P ->
  first_proper m P (cp - 1) -> thin P (cp - 1) -> thin P cp -> (forall n d, (n < 2)%nat -> (d < m)%nat -> repinv P (cp - 1) n d) ->
  exists P', foldM (higher_page_row rnd S cp) l P = Ok P' /\ shape np cs m P'.
Proof.
  intros Hcp Hnp Hcs. induction l as [|[n d] l IH]; intros P ND Hl SH HF HT1 HT HR; [cbn [foldM]; eauto|].
  cbn [foldM]. destruct (Hl (n, d) (or_introl eq_refl)) as [Hn Hd]. cbn [fst snd] in Hn, Hd.
  destruct (higher_row_total rnd S m np cs cp P n d Hcp Hnp Hcs Hn Hd SH HF HT1 HT) as (P1 & E1 & S1); [intros; apply HR; auto|].
  rewrite E1. cbn [bind].
  destruct (higher_row rnd S m cp P n d P1 (proj1 Hcp) Hn Hd ltac:(lia) E1 HF HT1 HT) as (O1 & _ & _ & T1).
  inversion ND; subst. apply IH; auto.
  - intros x Hx. apply Hl. right. exact Hx.
  - apply (first_proper_off m cp _ P); auto. lia.
  - apply (thin_off cp _ P); auto. lia.
  - intros n' d' A B. apply (repinv_off cp _ P); auto. lia.
Qed.

Lemma pages_total rnd S m np cs : (np <= length (s_nerve S))%nat -> (length (s_nerve S) <= cs)%nat ->
  forall j cp P, (2 <= cp)%nat -> (cp + j <= np)%nat -> shape np cs m P -> first_proper m P (cp - 1) -> (forall k, (cp - 1 <= k)%nat -> thin P k) ->
  (forall n d, (n < 2)%nat -> (d < m)%nat -> repinv P (cp - 1) n d) ->
  exists P', foldM (fun P cp => foldM (higher_page_row rnd S cp) (flat_map (fun n => map (fun d => (n, d)) (seq 0 m)) (seq 0 cp)) P) (seq cp j) P = Ok P' /\ shape np cs m P'.
Proof.
  intros Hnp Hcs. induction j as [|j IH]; intros cp P Hcp Hj SH HF HT HR; [cbn [seq foldM]; eauto|].
  cbn [seq foldM]. set (l := flat_map _ _).
  assert (Hl : forall x, In x l -> (fst x < cp)%nat /\ (snd x < m)%nat) by (intros [n d] Hx; apply starts_in in Hx; exact Hx).
  destruct (page_total rnd S m np cs cp ltac:(lia) Hnp Hcs l P (starts_NoDup m cp) Hl SH HF (HT (cp - 1)%nat ltac:(lia)) (HT cp ltac:(lia)) HR) as (P1 & E1 & S1).
  rewrite E1. cbn [bind].
  destruct (page_steps rnd S m cp Hcp ltac:(lia) l P P1 (starts_NoDup m cp) Hl E1 HF (HT (cp - 1)%nat ltac:(lia)) (HT cp ltac:(lia))) as (O1 & T1 & ST & _).
  assert (HF1 : first_proper m P1 (cp - 1)) by (apply (first_proper_off m cp _ P); auto; lia).
  assert (ST' : forall n d, (n < 2)%nat -> (d < m)%nat -> stp rnd P1 cp n d) by (intros n d A B; apply ST; [exact A|]; apply starts_in; lia).
  apply IH; [lia|lia|exact S1| | |].
  - replace (Datatypes.S cp - 1)%nat with cp by lia. intros n d H A B E. apply (stp_proper rnd m P1 cp n d H (ST' n d A B) HF1 A B E).
  - intros k Hk. destruct (Nat.eq_dec k cp) as [->|X]; [exact T1|]. apply (thin_off cp _ P); auto. apply HT. lia.
  - intros n d A B. replace (Datatypes.S cp - 1)%nat with cp by lia. apply (stp_refs rnd P1 cp n d); [intros H E; apply (HF1 n d H A B E)|apply ST'; auto|].
    apply (repinv_off cp _ P); auto. lia.
Qed.
