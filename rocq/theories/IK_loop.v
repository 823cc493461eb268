(** * The main loop of [image_kernel] on sorted modules (absolute case) *)
From Verif Require Import Base ListX SortX Lin Gauss_model Gauss_arith Gauss_col Basis_model Basis_props PH_model IK_model IK_pivot IK_lin IK_phase IK_kphase IK_inv.
From Coq Require Import Znumtheory Sorting.Sorted.
Local Open Scope Z_scope.

(** ** Deaths are radii of the loop *)
Definition dI_in (D : list Z) (ims : list icol) : Prop := forall c, In c ims -> ic_piv c = -1 -> In (ic_death c) D.
Definition dK_in (D : list Z) (ker : list kcol) : Prop := forall c, In c ker -> kc_piv c = -1 -> In (kc_death c) D.

Lemma In_list_set {A} (l : list A) i x y : In y (list_set l i x) -> y = x \/ In y l.
Proof.
  revert i. induction l as [|z l IH]; intros [|i]; simpl; auto; intros [H|H]; auto.
  apply IH in H. tauto.
Qed.

Lemma ker_step_deaths F aA aB dy rad p D st k st' : In rad D -> (kc_piv k = -1 -> In (kc_death k) D) ->
  dK_in D (fst (fst st)) -> dI_in D (snd st) ->
  ker_step F aA aB dy rad p st k = Ok st' -> dK_in D (fst (fst st')) /\ dI_in D (snd st').
Proof.
  intros Hr Hk HK HI. destruct st as [[acc newp] ims]. cbn [fst snd] in *. unfold ker_step.
  destruct (memi _ _ || memz _ _).
  - destruct (pivot_check_reduce _ _ _ _ _ _) as [[[r t] piv]|]; [|discriminate]. cbn [bind].
    destruct (Z.eqb_spec piv (-1)) as [E|E]; cbn [negb].
    + intros H. injection H as <-. cbn [fst snd]. split; auto. intros c Hc Hp. apply in_app_or in Hc. destruct Hc as [Hc|[<-|[]]]; auto.
    + destruct (nth_err ims (Z.to_nat piv)) as [c|]; [|discriminate]. cbn [bind].
      destruct (existsb _ _); [discriminate|]. intros H. injection H as <-. cbn [fst snd]. split.
      * intros c' Hc Hp. apply in_app_or in Hc. destruct Hc as [Hc|[<-|[]]]; auto. contradiction.
      * intros c' Hc Hp. apply In_list_set in Hc. destruct Hc as [->|Hc]; auto.
        destruct (negb _); cbn; auto.
  - intros H. injection H as <-. cbn [fst snd]. split; auto. intros c Hc Hp. apply in_app_or in Hc. destruct Hc as [Hc|[<-|[]]]; auto.
Qed.

Lemma ker_fold_deaths F aA aB dy rad p D l st st' : In rad D -> dK_in D l ->
  dK_in D (fst (fst st)) -> dI_in D (snd st) ->
  foldM (ker_step F aA aB dy rad p) l st = Ok st' -> dK_in D (fst (fst st')) /\ dI_in D (snd st').
Proof.
  intros Hr. revert st. induction l as [|k l IH]; intros st Hl HK HI; cbn [foldM].
  - intros H. injection H as <-. auto.
  - destruct (ker_step F aA aB dy rad p st k) as [st1|] eqn:E; [|discriminate]. cbn [bind].
    apply (ker_step_deaths F aA aB dy rad p D) in E; auto; [|intros Hm; apply Hl; auto; left; auto].
    intros H. apply IH in H; auto; try tauto. intros c Hc. apply Hl. right. auto.
Qed.

Lemma im_step_deaths F aB dy bi dyB rad p s cap br D st c st' : In rad D -> (ic_piv c = -1 -> In (ic_death c) D) ->
  dI_in D (fst (fst st)) -> dK_in D (snd st) ->
  im_step F aB dy bi dyB rad p s cap br st c = Ok st' -> dI_in D (fst (fst st')) /\ dK_in D (snd st').
Proof.
  intros Hr Hc HI HK. destruct st as [[acc newp] ker]. cbn [fst snd] in *. unfold im_step.
  match goal with |- (if ?b then _ else _) = _ -> _ => destruct b end.
  - destruct (pivot_check_reduce _ _ _ _ _ _) as [[[r t] piv]|]; [|discriminate]. cbn [bind].
    destruct (Z.eqb_spec piv (-1)) as [E|E]; cbn [negb].
    + match goal with |- bind ?x _ = _ -> _ => destruct x as [ker'|] eqn:Ek end; [|discriminate]. cbn [bind].
      intros H. injection H as <-. cbn [fst snd]. split.
      * intros c' Hc' Hp. apply in_app_or in Hc'. destruct Hc' as [Hc'|[<-|[]]]; auto. destruct (Nat.ltb 0 s); cbn; auto.
      * intros c' Hc' Hp. destruct (_ && Nat.eqb s 0).
        -- unfold push in Ek. destruct (Nat.ltb (length ker) cap); [|discriminate]. injection Ek as <-.
           apply in_app_or in Hc'. destruct Hc' as [Hc'|[<-|[]]]; auto. cbn in Hp. lia.
        -- injection Ek as <-. auto.
    + intros H. injection H as <-. cbn [fst snd]. split; auto. intros c' Hc' Hp. apply in_app_or in Hc'. destruct Hc' as [Hc'|[<-|[]]]; auto. contradiction.
  - intros H. injection H as <-. cbn [fst snd]. split; auto. intros c' Hc' Hp. apply in_app_or in Hc'. destruct Hc' as [Hc'|[<-|[]]]; auto.
Qed.

Lemma im_fold_deaths F aB dy bi dyB rad p s cap br D l st st' : In rad D -> dI_in D l ->
  dI_in D (fst (fst st)) -> dK_in D (snd st) ->
  foldM (im_step F aB dy bi dyB rad p s cap br) l st = Ok st' -> dI_in D (fst (fst st')) /\ dK_in D (snd st').
Proof.
  intros Hr. revert st. induction l as [|k l IH]; intros st Hl HI HK; cbn [foldM].
  - intros H. injection H as <-. auto.
  - destruct (im_step F aB dy bi dyB rad p s cap br st k) as [st1|] eqn:E; [|discriminate]. cbn [bind].
    apply (im_step_deaths F aB dy bi dyB rad p s cap br D) in E; auto; [|intros Hm; apply Hl; auto; left; auto].
    intros H. apply IH in H; auto; try tauto. intros c Hc. apply Hl. right. auto.
Qed.

Lemma mod_cong p x : 0 < p -> (x mod p = 0 <-> cong p x 0).
Proof.
  intros Hp. unfold cong. rewrite Z.sub_0_r. split.
  - intros H. apply Z.mod_divide; lia.
  - intros H. apply Z.mod_divide; auto. lia.
Qed.

(** ** The loop *)
Lemma vget_vunit k j i : (j < k)%nat -> vget (vunit k j) i = funit j i.
Proof.
  intros Hj. unfold vunit, funit. destruct (lt_dec i k) as [Hi|Hi].
  - unfold vget. rewrite nth_map_seq by auto. reflexivity.
  - rewrite vget_out; [|rewrite map_length, seq_length; lia]. destruct (Nat.eqb_spec i j); lia.
Qed.

Lemma last_radius (a : list Z) r : (exists x, In x a /\ x <= r) -> exists r0, In r0 a /\ r0 <= r /\ forall x, In x a -> x <= r -> x <= r0.
Proof.
  induction a as [|x a IH]; intros (y & Hy & Hle); [destruct Hy|].
  destruct (existsb (fun z => z <=? r) a) eqn:E.
  - apply existsb_exists in E. destruct E as (z & Hz & Hzr). apply Z.leb_le in Hzr.
    destruct IH as (r0 & H1 & H2 & H3); [eauto|]. destruct (Z_le_gt_dec x r) as [Hx|Hx]; [destruct (Z_le_gt_dec x r0)|].
    + exists r0. split; [right; auto|]. split; auto. intros u [<-|Hu] Hur; auto.
    + exists x. split; [left; auto|]. split; auto. intros u [<-|Hu] Hur; [lia|]. specialize (H3 u Hu Hur). lia.
    + exists r0. split; [right; auto|]. split; auto. intros u [<-|Hu] Hur; [lia|auto].
  - assert (Hn : forall z, In z a -> r < z).
    { intros z Hz. destruct (Z_lt_le_dec r z); auto. assert (existsb (fun z => z <=? r) a = true); [|congruence].
      apply existsb_exists. exists z. split; auto. apply Z.leb_le. auto. }
    destruct Hy as [->|Hy]; [|specialize (Hn y Hy); lia]. exists y. split; [left; auto|]. split; auto.
    intros u [<-|Hu] Hur; [lia|]. specialize (Hn u Hu). lia.
Qed.

Section Loop.
Variables (p : Z) (A B : basis) (F : mat).
Notation n := (ncols F).
Notation m := (nrows F).
Definition lo (b : basis) (i : nat) : Z := fst (nth i (b_bars b) (0, 0)).
Definition hi (b : basis) (i : nat) : Z := snd (nth i (b_bars b) (0, 0)).
Notation bA := (lo A).
Notation dA := (hi A).
Notation bB := (lo B).
Notation dB := (hi B).
Notation alA := (alive n bA dA).
Notation alB := (alive m bB dB).
Hypothesis Hp : prime p.
Hypothesis HF : wf_mat F.
Hypothesis HA : b_flat A = false.
Hypothesis HB : b_flat B = false.
Hypothesis HAd : b_dim A = length (b_bars A).
Hypothesis HBd : b_dim B = length (b_bars B).
Hypothesis HAn : b_dim A = n.
Hypothesis HBm : b_dim B = m.
Hypothesis Hbrk : b_brk B = None.
Hypothesis HbarA : forall i, (i < n)%nat -> bA i < dA i.
Hypothesis HbarB : forall i, (i < m)%nat -> bB i < dB i.
Hypothesis Hsort : forall i j, (i <= j)%nat -> (j < n)%nat -> bA i <= bA j.
Hypothesis Hmor : forall j i, (j < n)%nat -> (i < m)%nat -> ~ cong p (fF F j i) 0 -> bB i <= bA j /\ dB i <= dA j.
Hypothesis Hnn : forall j i, 0 <= fF F j i.

Definition Inv (D done : list Z) (rho : Z) (st : list icol * list kcol) : Prop :=
  ImInv p F bA dA bB dB done rho rho (fst st) /\ KerInv p F bA dA bB dB done rho (fst st) (snd st) /\
  covers F bA dA rho (fst st) (snd st) /\ (length (snd st) + count_alive (fst st) <= n)%nat /\
  dI_in D (fst st) /\ dK_in D (snd st).

Lemma mem_active b k (l : list nat) r : b_dim b = length (b_bars b) -> b_dim b = k -> active b r = Ok l ->
  StronglySorted lt l /\ forall i, mem l i = alive k (lo b) (hi b) r i.
Proof.
  intros Hd Hk E. apply select_spec in E. destruct E as [E1 E2]. split; auto. intros i.
  apply Bool.eq_iff_eq_true. unfold mem. rewrite memn_In, E2, alive_iff, andb_true_iff, Z.leb_le, Z.ltb_lt. unfold lo, hi. rewrite <- Hd, Hk. tauto.
Qed.

Lemma rad_step_inv D done rho rad st : In rad D -> Inv D done rho st -> next F bA dA bB dB done rho rad ->
  exists st', rad_step A B F p 0 st rad = Ok st' /\ Inv D (done ++ [rad]) rad st'.
Proof.
  destruct st as [ims ker]. intros HrD (HI & HK & Hc & Hn & HDI & HDK) Hnx. cbn [fst snd] in *.
  unfold rad_step.
  destruct (select_total A (fun x => (fst x <=? rad) && (rad <? snd x)) HA HAd) as (aA & EaA).
  destruct (select_total B (fun x => (fst x <=? rad) && (rad <? snd x)) HB HBd) as (aB & EaB).
  destruct (select_total A (fun x => snd x =? rad) HA HAd) as (dyA & EdA).
  destruct (select_total A (fun x => fst x =? rad) HA HAd) as (biA & EbA).
  destruct (select_total B (fun x => snd x =? rad) HB HBd) as (dyB & EdB).
  unfold active, death, birth. rewrite EaA, EaB, EdA, EbA, EdB. cbn [bind]. rewrite Hbrk. cbn [negb andb Nat.eqb].
  destruct (mem_active A n aA rad HAd HAn EaA) as [SA MA]. destruct (mem_active B m aB rad HBd HBm EaB) as [SB MB].
  apply select_spec in EdA, EbA, EdB. destruct EdA as [_ EdA], EbA as [_ EbA], EdB as [_ EdB].
  rewrite <- HAd in EdA, EbA. rewrite <- HBd in EdB. rewrite HAn in *. rewrite HBm in EdB.
  assert (HdA : forall i, In i dyA <-> (i < n)%nat /\ dA i = rad) by (intros i; rewrite EdA, Z.eqb_eq; reflexivity).
  assert (HbA : forall i, In i biA <-> (i < n)%nat /\ bA i = rad) by (intros i; rewrite EbA, Z.eqb_eq; reflexivity).
  assert (HdB : forall i, In i dyB <-> (i < m)%nat /\ dB i = rad) by (intros i; rewrite EdB, Z.eqb_eq; reflexivity).
  destruct (ker_phase_inv p F bA dA bB dB Hp HF HbarA Hsort Hmor done rho rad ims ker aA aB dyA) as (ker1 & np & ims1 & E1 & L1 & HI1 & HK1 & Hc1 & Hn1); auto.
  rewrite E1. cbn [bind].
  apply (ker_fold_deaths F aA aB dyA rad p D) in E1; auto; [|intros ? []]. cbn [fst snd] in E1. destruct E1 as [HDK1 HDI1].
  destruct (im_phase_inv p F bA dA bB dB Hp HF HbarA Hsort Hmor done rho rad ims1 ker1 aB dyA biA dyB) as (ims2 & np2 & ker2 & E2 & HI2 & HK2 & Hc2 & Hn2); auto.
  { lia. }
  rewrite E2. cbn [bind]. exists (ims2, ker2). split; auto.
  apply (im_fold_deaths F aB dyA biA dyB rad p 0%nat n false D) in E2; auto; [|intros ? []]. cbn [fst snd] in E2.
  unfold Inv. cbn [fst snd]. tauto.
Qed.

Definition ends_in (a : list Z) : Prop :=
  (forall i, (i < n)%nat -> In (bA i) a /\ In (dA i) a) /\ (forall i, (i < m)%nat -> In (bB i) a /\ In (dB i) a).

Lemma loop_inv D rest : forall done rho st, incl rest D -> ends_in (done ++ rest) -> StronglySorted Z.lt (done ++ rest) ->
  (forall r, In r done -> r <= rho) -> (forall r, In r rest -> rho < r) -> Inv D done rho st ->
  exists st' rho', foldM (rad_step A B F p 0) rest st = Ok st' /\ Inv D (done ++ rest) rho' st' /\
    (forall r, In r (done ++ rest) -> r <= rho') /\ (rest = [] /\ rho' = rho \/ In rho' rest).
Proof.
  induction rest as [|rad rest IH]; intros done rho st HD He Hs Hd Hr HI.
  - rewrite app_nil_r in *. exists st, rho. cbn [foldM]. split; auto.
  - assert (Hgt : forall r, In r rest -> rad < r).
    { clear -Hs. induction done as [|x done IHd]; cbn in Hs.
      - apply StronglySorted_inv in Hs. rewrite <- Forall_forall. tauto.
      - apply IHd. apply StronglySorted_inv in Hs. tauto. }
    destruct (rad_step_inv D done rho rad st) as (st1 & E & HI1); auto.
    { apply HD. left. auto. }
    { assert (X : forall x, In x (done ++ rad :: rest) -> x <= rho \/ rad <= x).
      { intros x Hx. apply in_app_or in Hx. destruct Hx as [Hx|[<-|Hx]]; [left; auto|right; lia|right; apply Hgt in Hx; lia]. }
      destruct He as [HeA HeB]. split; [apply Hr; left; auto|]. split; [auto|].
      split; intros i Hi; [destruct (HeA i Hi)|destruct (HeB i Hi)]; auto. }
    destruct (IH (done ++ [rad]) rad st1) as (st' & rho' & E' & HI' & H1 & H2); auto.
    { intros x Hx. apply HD. right. auto. }
    { rewrite <- app_assoc. exact He. }
    { rewrite <- app_assoc. exact Hs. }
    { intros r Hin. apply in_app_or in Hin. destruct Hin as [Hin|[<-|[]]]; [|lia]. specialize (Hd r Hin). specialize (Hr rad ltac:(left; auto)). lia. }
    rewrite <- app_assoc in HI', H1. exists st', rho'. cbn [foldM]. rewrite E. cbn [bind]. split; auto. split; auto. split; auto.
    right. destruct H2 as [[_ ->]|H2]; [left; auto|right; auto].
Qed.

(** The initial columns. *)
Definition ims0 : list icol := map (fun j => ICol (fst (nth j (b_bars A) (0, 0))) 0 (col F j) (vunit n j) (-2)) (seq 0 n).

Lemma nth_ims0 j : (j < n)%nat -> nth j ims0 dI = ICol (bA j) 0 (col F j) (vunit n j) (-2).
Proof. intros Hj. unfold ims0. rewrite nth_map_seq by auto. reflexivity. Qed.

Lemma count_all l : (forall c, In c l -> ic_piv c <> -1) -> count_alive l = length l.
Proof.
  unfold count_alive. intros H. induction l as [|c l IH]; auto. cbn. destruct (Z.eqb_spec (ic_piv c) (-1)) as [E|E].
  - elim (H c); auto. left. auto.
  - cbn. f_equal. apply IH. intros c' Hc. apply H. right. auto.
Qed.

Lemma init_inv D rho : (forall i, (i < n)%nat -> rho < bA i) -> Inv D [] rho (ims0, []).
Proof.
  intros Hrho. assert (Hlen : length ims0 = n) by (unfold ims0; rewrite map_length, seq_length; auto).
  assert (Hpv : forall j, (j < n)%nat -> pv ims0 j = -2) by (intros j Hj; unfold pv; rewrite nth_ims0; auto).
  assert (HT : forall j, (j < n)%nat -> forall i, fT ims0 j i = funit j i).
  { intros j Hj i. unfold fT. rewrite nth_ims0 by auto. cbn [ic_T]. apply vget_vunit. auto. }
  assert (HC : forall j, (j < n)%nat -> forall i, fC ims0 j i = fF F j i).
  { intros j Hj i. unfold fC. rewrite nth_ims0 by auto. reflexivity. }
  assert (HFT : forall j, (j < n)%nat -> forall i, cong p (fC ims0 j i) (lc n (fT ims0 j) (fF F) i)).
  { intros j Hj i. rewrite HC by auto. rewrite <- (lc_unit n j (fF F) i Hj) at 1. apply lc_cong; [|reflexivity].
    intros k Hk. rewrite HT by auto. reflexivity. }
  assert (Htri : forall j, (j < n)%nat -> tri p j (fT ims0 j)).
  { intros j Hj. apply (tri_cong p j (funit j)); [|apply tri_funit; auto]. intros i. rewrite HT by auto. reflexivity. }
  unfold Inv. cbn [fst snd]. split; [|split; [|split; [|split; [|split]]]].
  - constructor; auto; try (intros; rewrite Hpv in * by auto; lia); try (intros; rewrite Hpv in *; auto; lia); try (intros; exfalso; simpl in *; tauto).
    + intros j Hj. rewrite nth_ims0 by auto. unfold wf_ic. cbn. split; [|split; [|split]].
      * apply wf_col; auto.
      * unfold vunit. rewrite map_length, seq_length. auto.
      * intros i. apply Hnn.
      * intros i. rewrite vget_vunit by auto. unfold funit. destruct (Nat.eqb i j); lia.
    + intros j Hj. rewrite nth_ims0 by auto. reflexivity.
    + intros j Hj. specialize (Hrho j Hj). rewrite Hpv by auto. lia.
    + exists (fT ims0). intros j Hj. auto.
  - constructor; cbn [length]; try (intros; exfalso; lia); intros; exfalso; simpl in *; tauto.
  - intros j Hj. apply alive_iff in Hj. specialize (Hrho j ltac:(tauto)). lia.
  - cbn [length]. rewrite count_all; [lia|]. intros c Hc. unfold ims0 in Hc. apply in_map_iff in Hc. destruct Hc as (j & <- & _). cbn. lia.
  - intros c Hc Hm. unfold ims0 in Hc. apply in_map_iff in Hc. destruct Hc as (j & <- & _). cbn in Hm. lia.
  - intros c [].
Qed.

(** ** After the loop *)
Definition radii : list Z := zunique (changes_list A ++ changes_list B).

Lemma radii_ends : ends_in radii.
Proof.
  unfold ends_in, radii, lo, hi. split; intros i Hi; split; apply zunique_In, in_or_app; [left|left|right|right]; apply changes_In; exists i;
    (split; [lia|auto]).
Qed.

(** Image and kernel at the radius [r]. *)
Definition kerF (r : Z) (v : fvec) : Prop := zon p (alB r) (lc n (on (alA r) v) (fF F)).
Definition imF (r : Z) (v : fvec) : Prop := exists x, forall i, alB r i = true -> cong p (v i) (lc n (on (alA r) x) (fF F) i).

Record result (ims : list icol) (ker : list kcol) : Prop := {
  re_ilen : length ims = n;
  re_iwf : forall j, (j < n)%nat -> wf_ic F (nth j ims dI);
  re_kwf : forall k, (k < length ker)%nat -> wf_kc F (nth k ker dK);
  re_ipiv : forall j, (j < n)%nat -> pv ims j = -1;
  re_kpiv : forall k, (k < length ker)%nat -> kp ker k = -1;
  re_ibirth : forall j, (j < n)%nat -> ic_birth (nth j ims dI) = bA j;
  re_ideath : forall j, (j < n)%nat -> bA j <= ic_death (nth j ims dI);
  re_kbar : forall k, (k < length ker)%nat -> kb ker k < kd ker k;
  re_csupp : forall j i, (j < n)%nat -> (i < m)%nat -> ~ cong p (fC ims j i) 0 -> bB i <= bA j;
  re_ksupp : forall k i, (k < length ker)%nat -> ~ cong p (fK ker k i) 0 -> (i < n)%nat /\ bA i <= kb ker k;
  re_kin : forall k, (k < length ker)%nat -> In (kb ker k) radii;
  (* kernel *)
  re_kmem : forall k r, (k < length ker)%nat -> kb ker k <= r -> kerF r (fK ker k);
  re_kzero : forall k r, (k < length ker)%nat -> kb ker k <= r -> (zon p (alA r) (fK ker k) <-> kd ker k <= r);
  re_kindep : forall r, indep p (alA r) (length ker) (fK ker) (fun k => kb ker k <=? r);
  re_kspan : forall r x, kerF r x -> gens p (alA r) (length ker) (fK ker) (fun k => (kb ker k <=? r) && (r <? kd ker k)) x;
  (* image *)
  re_imem : forall j r, (j < n)%nat -> bA j <= r -> imF r (fC ims j);
  re_ilive : forall j r, (j < n)%nat -> bA j <= r -> ~ zon p (alB r) (fC ims j) -> r < ic_death (nth j ims dI);
  re_iexact : forall j r, calm F bA dA j -> (j < n)%nat -> bA j <= r -> zon p (alB r) (fC ims j) -> ic_death (nth j ims dI) <= r;
  re_ipre : forall j, calm F bA dA j -> (j < n)%nat -> forall i, cong p (fC ims j i) (lc n (fT ims j) (fF F) i);
  re_iindep : forall r, indep p (alB r) n (fC ims) (fun j => bA j <=? r);
  re_ispan : forall r v, imF r v -> exists c, (forall j, (j < n)%nat -> ~ cong p (c j) 0 -> bA j <= r /\ ~ zon p (alB r) (fC ims j)) /\
     forall i, alB r i = true -> cong p (v i) (lc n c (fC ims) i)
}.

Lemma result_of_inv rho ims ker : Inv radii radii rho (ims, ker) -> (forall x, In x radii -> x <= rho) -> result ims ker.
Proof.
  intros (HI & HK & _ & _ & HDI & HDK) Hrho. cbn [fst snd] in *. destruct radii_ends as [EA EB].
  assert (Hlen := ii_len _ _ _ _ _ _ _ _ _ _ HI).
  assert (Hpv : forall j, (j < n)%nat -> pv ims j = -1).
  { intros j Hj. destruct (EA j Hj) as [X Y]. apply Hrho in X, Y. destruct (ii_range _ _ _ _ _ _ _ _ _ _ HI j Hj) as [R|[R|R]]; auto.
    - apply (ii_unborn _ _ _ _ _ _ _ _ _ _ HI j Hj) in R. lia.
    - apply (ii_alive _ _ _ _ _ _ _ _ _ _ HI j Hj) in R. lia. }
  assert (Hkp : forall k, (k < length ker)%nat -> kp ker k = -1).
  { intros k Hk. destruct (ki_range _ _ _ _ _ _ _ _ _ _ HK k Hk) as [R|R]; auto.
    destruct (ki_piv _ _ _ _ _ _ _ _ _ _ HK k Hk R) as [Q _]. apply on_nz in Q. destruct Q as [Q _]. apply alive_iff in Q.
    destruct (EA (Z.to_nat (kp ker k)) ltac:(tauto)) as [_ X]. apply Hrho in X. lia. }
  assert (HID : forall j, (j < n)%nat -> In (ic_death (nth j ims dI)) radii).
  { intros j Hj. apply HDI; [apply nth_In; lia|]. apply Hpv; auto. }
  assert (HKD : forall k, (k < length ker)%nat -> In (kd ker k) radii).
  { intros k Hk. apply HDK; [apply nth_In; lia|]. apply Hkp; auto. }
  (* every radius behaves like the previous change *)
  assert (Hr : forall r, (forall x, In x radii -> r < x) \/ exists r0, In r0 radii /\ forall x, In x radii -> (x <= r <-> x <= r0)).
  { intros r. destruct (existsb (fun x => x <=? r) radii) eqn:E.
    - right. apply existsb_exists in E. destruct E as (x & Hx & Hle). apply Z.leb_le in Hle.
      destruct (last_radius radii r) as (r0 & H1 & H2 & H3); [eauto|]. exists r0. split; auto. intros y Hy. split; auto. lia.
    - left. intros x Hx. destruct (Z_lt_le_dec r x) as [|Hle]; auto. assert (existsb (fun x => x <=? r) radii = true); [|congruence].
      apply existsb_exists. exists x. split; auto. apply Z.leb_le. auto. }
  assert (HalA : forall r r0, (forall x, In x radii -> (x <= r <-> x <= r0)) -> forall i, alA r i = alA r0 i).
  { intros r r0 H i. apply Bool.eq_iff_eq_true. rewrite !alive_iff. split; intros (H1 & H2 & H3); destruct (EA i H1) as [X Y]; apply H in X, Y; lia. }
  assert (HalB : forall r r0, (forall x, In x radii -> (x <= r <-> x <= r0)) -> forall i, alB r i = alB r0 i).
  { intros r r0 H i. apply Bool.eq_iff_eq_true. rewrite !alive_iff. split; intros (H1 & H2 & H3); destruct (EB i H1) as [X Y]; apply H in X, Y; lia. }
  assert (HzA : forall r r0, (forall x, In x radii -> (x <= r <-> x <= r0)) -> forall v, zon p (alA r) v <-> zon p (alA r0) v).
  { intros r r0 H v. split; intros Hz; apply zon_intro; intros i Hi; apply (zon_at p _ v i Hz); [rewrite (HalA r r0 H)|rewrite <- (HalA r r0 H)]; auto. }
  assert (HzB : forall r r0, (forall x, In x radii -> (x <= r <-> x <= r0)) -> forall v, zon p (alB r) v <-> zon p (alB r0) v).
  { intros r r0 H v. split; intros Hz; apply zon_intro; intros i Hi; apply (zon_at p _ v i Hz); [rewrite (HalB r r0 H)|rewrite <- (HalB r r0 H)]; auto. }
  assert (HnA : forall r, (forall x, In x radii -> r < x) -> forall i, alA r i = false).
  { intros r H i. destruct (alA r i) eqn:E; auto. apply alive_iff in E. destruct (EA i ltac:(tauto)) as [X _]. apply H in X. lia. }
  assert (HnB : forall r, (forall x, In x radii -> r < x) -> forall i, alB r i = false).
  { intros r H i. destruct (alB r i) eqn:E; auto. apply alive_iff in E. destruct (EB i ltac:(tauto)) as [X _]. apply H in X. lia. }
  assert (HmA : forall r, (forall x, In x radii -> r < x) -> forall i, (i < n)%nat -> r < bA i).
  { intros r H i Hi. apply H. apply EA; auto. }
  assert (HmK : forall r, (forall x, In x radii -> r < x) -> forall k, (k < length ker)%nat -> r < kb ker k).
  { intros r H k Hk. apply H. apply (ki_birth _ _ _ _ _ _ _ _ _ _ HK); auto. }
  assert (HkbR : forall k, (k < length ker)%nat -> In (kb ker k) radii) by (intros k Hk; apply (ki_birth _ _ _ _ _ _ _ _ _ _ HK); auto).
  assert (Kz : forall k r, (k < length ker)%nat -> kb ker k <= r -> (zon p (alA r) (fK ker k) <-> kd ker k <= r)).
  { intros k r Hk Hle. destruct (Hr r) as [H|(r0 & H0 & H)]; [specialize (HmK r H k Hk); lia|].
    rewrite (HzA r r0 H). rewrite (ki_alive _ _ _ _ _ _ _ _ _ _ HK k r0); auto; [|apply H; auto].
    symmetry. apply H. auto. }
  constructor; auto.
  - apply HI.
  - apply HK.
  - apply HI.
  - intros j Hj. apply (ii_dd _ _ _ _ _ _ _ _ _ _ HI); auto.
  - intros k Hk. apply (ki_kd _ _ _ _ _ _ _ _ _ _ HK); auto.
  - intros j i Hj Hi Hn. apply (C_support p F bA dA bB dB HbarA Hsort Hmor radii rho rho ims j HI); auto.
  - apply HK.
  - intros k r Hk Hle. apply (ki_ker _ _ _ _ _ _ _ _ _ _ HK); auto.
  - intros r. destruct (Hr r) as [H|(r0 & H0 & H)].
    + intros c Hc _ k Hk. destruct (cong_dec p (c k) 0) as [|Hn]; auto. destruct (Hc k Hk Hn) as [Ho _]. apply Z.leb_le in Ho.
      specialize (HmK r H k Hk). lia.
    + intros c Hc Hz. apply (ki_indep _ _ _ _ _ _ _ _ _ _ HK r0 H0 c).
      * intros k Hk Hn. destruct (Hc k Hk Hn) as [Ho Hz']. split; [|rewrite <- (HzA r r0 H); auto].
        apply Z.leb_le in Ho. apply Z.leb_le. apply H; auto.
      * rewrite <- (HzA r r0 H). auto.
  - intros r x Hx. destruct (Hr r) as [H|(r0 & H0 & H)].
    + exists (fun _ => 0). split; [intros j _ Hn; elim Hn; reflexivity|]. intros i Hi. rewrite HnA in Hi by auto. discriminate.
    + assert (Hg : gens p (alA r0) (length ker) (fK ker) (fun k => kb ker k <=? r0) (on (alA r0) x)).
      { apply (ki_span _ _ _ _ _ _ _ _ _ _ HK); auto.
        - intros i Hn. apply on_nz in Hn. tauto.
        - rewrite <- (HzB r r0 H). unfold kerF in Hx. apply (zon_cong p (alB r) (lc n (on (alA r) x) (fF F))); auto.
          intros i _. apply lc_cong; [|reflexivity]. intros k Hk. rewrite (on_ext _ _ x k (HalA r r0 H)). reflexivity. }
      apply (gens_prune p n (alA r0) Hp (alA_lt F bA dA r0)) in Hg. destruct Hg as (c & Hc & Hcx).
      exists c. split.
      * intros k Hk Hn. destruct (Hc k Hk Hn) as [Ho Hz]. apply Z.leb_le in Ho. apply (H _ (HkbR k Hk)) in Ho.
        apply andb_true_iff. split; [apply Z.leb_le; auto|]. apply Z.ltb_lt.
        destruct (Z_lt_le_dec r (kd ker k)) as [|Hle]; auto. elim Hz. apply (HzA r r0 H). apply Kz; auto.
      * intros i Hi. rewrite (HalA r r0 H) in Hi. rewrite <- (Hcx i Hi). unfold on. rewrite Hi. reflexivity.
  - intros j r Hj Hle. destruct (ii_U _ _ _ _ _ _ _ _ _ _ HI) as (U & HU). destruct (HU j Hj) as [[U1 _] U2].
    exists (U j). intros i Hi. rewrite U2. symmetry. apply (restrict_image p F bA dA bB dB HbarA Hsort Hmor); auto.
    intros k Hk Hn. specialize (U1 k Hn). pose proof (Hsort k j U1 Hj). lia.
  - intros j r Hj Hle Hz. destruct (Hr r) as [H|(r0 & H0 & H)]; [specialize (HmA r H j Hj); lia|].
    assert (r0 < ic_death (nth j ims dI)).
    { apply (ii_death _ _ _ _ _ _ _ _ _ _ HI j r0); auto; [apply H; auto; apply EA; auto|rewrite <- (HzB r r0 H); auto]. }
    destruct (Z_lt_le_dec r (ic_death (nth j ims dI))) as [|X]; auto. apply (H _ (HID j Hj)) in X. lia.
  - intros j r Hc Hj Hle Hz. destruct (Hr r) as [H|(r0 & H0 & H)]; [specialize (HmA r H j Hj); lia|].
    apply (H _ (HID j Hj)). apply (ii_exact _ _ _ _ _ _ _ _ _ _ HI j r0); auto; [apply H; auto; apply EA; auto|rewrite <- (HzB r r0 H); auto].
  - intros j Hc Hj. apply (ii_FTc _ _ _ _ _ _ _ _ _ _ HI); auto.
  - intros r. destruct (Hr r) as [H|(r0 & H0 & H)].
    + intros c Hc _ j Hj. destruct (cong_dec p (c j) 0) as [|Hn]; auto. destruct (Hc j Hj Hn) as [Ho _]. apply Z.leb_le in Ho.
      specialize (HmA r H j Hj). lia.
    + intros c Hc Hz. apply (ii_past _ _ _ _ _ _ _ _ _ _ HI r0 H0 c).
      * intros k Hk Hn. destruct (Hc k Hk Hn) as [Ho Hz']. split; [|rewrite <- (HzB r r0 H); auto].
        apply Z.leb_le in Ho. apply Z.leb_le. apply H; auto. apply EA; auto.
      * rewrite <- (HzB r r0 H). auto.
  - intros r v (x & Hx).
    destruct (piv_or_zero p n (on (alA r) x)) as [Hz|(q & Hq & Q1 & Q2)].
    { intros i Hi. unfold on. destruct (alA r i) eqn:E; [|reflexivity]. apply alive_iff in E. lia. }
    { exists (fun _ => 0). split; [intros j _ Hn; elim Hn; reflexivity|]. intros i Hi. rewrite (Hx i Hi).
      rewrite (lc_cong0 p n (on (alA r) x)); [|intros k _; rewrite (Hz k); apply cong_eq; unfold fzero; ring]. unfold lc. rewrite Zsum_0; [reflexivity|intros; ring]. }
    destruct (solve_C p F bA dA bB dB Hp HbarA Hsort Hmor radii rho rho ims q (on (alA r) x)) as (w & W1 & W2 & _); auto.
    { intros i Hn. destruct (le_lt_dec i q) as [|Hlt]; auto. elim Hn. apply Q2. auto. }
    apply on_nz in Q1. destruct Q1 as [Qa _]. apply alive_iff in Qa.
    destruct (gens_prune p m (alB r) Hp (alB_lt F bB dB r) n (fC ims) (fun j => bA j <=? r) v) as (c & Hc & Hcx).
    { exists w. split.
      - intros j Hj Hn. apply Z.leb_le. specialize (W1 j Hn). pose proof (Hsort j q W1 Hq). lia.
      - intros i Hi. rewrite (Hx i Hi). apply W2. }
    exists c. split; auto. intros j Hj Hn. destruct (Hc j Hj Hn) as [X Y]. apply Z.leb_le in X. auto.
Qed.

Lemma all_piv_finish_ims a ims : (forall j, (j < length ims)%nat -> pv ims j = -1) -> finish_ims a ims = Ok ims.
Proof.
  intros H. unfold finish_ims. assert (X : forall c, In c ims -> ic_piv c = -1).
  { intros c Hc. apply In_nth with (d := dI) in Hc. destruct Hc as (j & Hj & <-). apply H; auto. }
  clear H. induction ims as [|c ims IH]; auto. cbn [mapM]. rewrite (X c) by (left; auto). cbn [Z.eqb negb bind]. 
  rewrite IH; auto. intros c' Hc. apply X. right. auto.
Qed.
Lemma all_piv_finish_ker a ker : (forall j, (j < length ker)%nat -> kp ker j = -1) -> finish_ker a ker = Ok ker.
Proof.
  intros H. unfold finish_ker. assert (X : forall c, In c ker -> kc_piv c = -1).
  { intros c Hc. apply In_nth with (d := dK) in Hc. destruct Hc as (j & Hj & <-). apply H; auto. }
  clear H. induction ker as [|c ims IH]; auto. cbn [mapM]. rewrite (X c) by (left; auto). cbn [Z.eqb negb bind]. 
  rewrite IH; auto. intros c' Hc. apply X. right. auto.
Qed.

(** ** The zero morphism

    When every column vanishes at its birth the loops never reduce anything: every image bar dies at birth. *)
Lemma pcr_null act prev r t fuel : (forall i, In i act -> vget r i mod p = 0) ->
  pivot_check_reduce (S fuel) act prev r t p = Ok (r, t, -1).
Proof.
  intros H. cbn [pivot_check_reduce]. assert (E : index_pivot (map (fun i => vget r i mod p) act) = -1).
  { apply index_pivot_m1. intros i. destruct (lt_dec i (length act)) as [Hi|Hi].
    - rewrite (vget_nth_map _ 0%nat) by auto. apply H, nth_In. auto.
    - apply vget_out. rewrite map_length. lia. }
  rewrite E. reflexivity.
Qed.

Definition nullF : Prop := forall j, (j < n)%nat -> zon p (alB (bA j)) (fF F j).
Definition NI (j : nat) (c : icol) : Prop :=
  ic_col c = col F j /\ ic_T c = vunit n j /\ (ic_piv c = -2 \/ ic_piv c = -1 /\ ic_death c = bA j).
Definition NK (k : kcol) : Prop := exists j, (j < n)%nat /\ kc_col k = vunit n j /\ (kc_piv k = Z.of_nat j \/ kc_piv k = -1).

Lemma null_ker aA aB dy rad l acc ims :
  (forall i, In i dy -> ~ In i aA) -> Forall NK l -> Forall NK acc ->
  exists acc', foldM (ker_step F aA aB dy rad p) l (acc, [], ims) = Ok (acc', [], ims) /\ Forall NK acc'.
Proof.
  intros Hd. revert acc. induction l as [|k l IH]; intros acc Hl Hacc.
  - exists acc. split; auto.
  - inversion Hl as [|? ? Hk Hl']; subst. cbn [foldM]. unfold ker_step at 1. cbn [memz existsb]. rewrite orb_false_r.
    destruct Hk as (j & Hj & Ec & Hpv). destruct (memi (kc_piv k) dy) eqn:E.
    + destruct Hpv as [Hpv|Hpv].
      2:{ unfold memi in E. apply existsb_exists in E. destruct E as (x & _ & E). apply Z.eqb_eq in E. lia. }
      rewrite Ec. unfold pcr_fuel. rewrite pcr_null.
      2:{ intros i Hi. rewrite vget_vunit by auto. unfold funit. destruct (Nat.eqb_spec i j) as [->|]; [|reflexivity].
          exfalso. apply (Hd j); auto. unfold memi in E. apply existsb_exists in E. destruct E as (x & Hx & E). apply Z.eqb_eq in E.
          assert (x = j) by lia. subst. auto. }
      cbn [bind Z.eqb negb]. apply IH; auto. apply Forall_app. split; auto. constructor; auto. exists j. cbn. auto.
    + cbn [bind]. apply IH; auto. apply Forall_app. split; auto. constructor; auto. exists j. auto.
Qed.

Lemma null_im aB dy bi dyB rad cap l acc ker st :
  (forall j, In j bi -> (j < n)%nat /\ bA j = rad) -> (forall i, In i aB -> alB rad i = true) -> nullF ->
  (length acc + length l = n)%nat ->
  (forall j, (j < length acc)%nat -> NI j (nth j acc dI)) -> (forall j, (j < length l)%nat -> NI (length acc + j) (nth j l dI)) -> Forall NK ker ->
  foldM (im_step F aB dy bi dyB rad p 0 cap false) l (acc, [], ker) = Ok st ->
  length (fst (fst st)) = n /\ (forall j, (j < n)%nat -> NI j (nth j (fst (fst st)) dI)) /\ Forall NK (snd st).
Proof.
  intros Hbi HaB HN. revert acc ker. induction l as [|c l IH]; intros acc ker Hlen Hacc Hl HK.
  - cbn [foldM]. intros H. injection H as <-. cbn [fst snd]. cbn [length] in Hlen. rewrite Nat.add_0_r in Hlen. split; auto. split; auto. intros j Hj. apply Hacc. lia.
  - cbn [length] in *. cbn [foldM]. pose proof (Hl 0%nat ltac:(lia)) as H0. cbn [nth] in H0. rewrite Nat.add_0_r in H0.
    assert (Next : forall c' ker', NI (length acc) c' -> Forall NK ker' ->
      foldM (im_step F aB dy bi dyB rad p 0 cap false) l (acc ++ [c'], [], ker') = Ok st ->
      length (fst (fst st)) = n /\ (forall j, (j < n)%nat -> NI j (nth j (fst (fst st)) dI)) /\ Forall NK (snd st)).
    { intros c' ker' Hc' HK'. apply IH; auto.
      - rewrite app_length. cbn [length]. lia.
      - rewrite app_length. cbn [length]. intros j Hj. destruct (Nat.eq_dec j (length acc)) as [->|Hne].
        + rewrite app_nth2, Nat.sub_diag by lia. exact Hc'.
        + rewrite app_nth1 by lia. apply Hacc. lia.
      - intros j Hj. rewrite app_length. cbn [length]. specialize (Hl (S j) ltac:(lia)). cbn [nth] in Hl.
        replace (length acc + 1 + j)%nat with (length acc + S j)%nat by lia. exact Hl. }
    unfold im_step at 1. destruct H0 as (Ec & ET & Hpv).
    assert (E1 : (0 <=? ic_piv c) = false) by (apply Z.leb_gt; lia).
    assert (E2 : memi (ic_piv c) dyB = false).
    { unfold memi. destruct (existsb _ dyB) eqn:E; auto. apply existsb_exists in E. destruct E as (x & _ & E). apply Z.eqb_eq in E. lia. }
    rewrite E1, E2. cbn [andb orb memz existsb].
    destruct (memn (length acc) bi) eqn:Eb.
    + apply memn_In in Eb. destruct (Hbi _ Eb) as [Hj Hrad]. rewrite Ec, ET. unfold pcr_fuel. rewrite pcr_null.
      2:{ intros i Hi. apply mod_cong; [destruct Hp; lia|]. specialize (HN _ Hj). rewrite Hrad in HN. apply (zon_at p _ _ i HN). auto. }
      cbn [bind Z.eqb negb andb Nat.eqb]. rewrite !andb_true_r. destruct (negb (memn (length acc) dy)); cbn [bind Nat.ltb Nat.leb].
      * unfold push. destruct (Nat.ltb (length ker) cap); [|discriminate]. cbn [bind]. apply Next.
        -- unfold NI. cbn. split; auto.
        -- apply Forall_app. split; auto. constructor; auto. exists (length acc). cbn. auto.
      * apply Next; auto. unfold NI. cbn. split; auto.
    + cbn [bind]. apply Next; auto. unfold NI. auto.
Qed.

Lemma null_rad rad st st' : nullF ->
  length (fst st) = n -> (forall j, (j < n)%nat -> NI j (nth j (fst st) dI)) -> Forall NK (snd st) ->
  rad_step A B F p 0 st rad = Ok st' ->
  length (fst st') = n /\ (forall j, (j < n)%nat -> NI j (nth j (fst st') dI)) /\ Forall NK (snd st').
Proof.
  intros HN Hlen Him HK. destruct st as [ims ker]. cbn [fst snd] in *. unfold rad_step.
  destruct (select_total A (fun x => (fst x <=? rad) && (rad <? snd x)) HA HAd) as (aA & EaA).
  destruct (select_total B (fun x => (fst x <=? rad) && (rad <? snd x)) HB HBd) as (aB & EaB).
  destruct (select_total A (fun x => snd x =? rad) HA HAd) as (dyA & EdA).
  destruct (select_total A (fun x => fst x =? rad) HA HAd) as (biA & EbA).
  destruct (select_total B (fun x => snd x =? rad) HB HBd) as (dyB & EdB).
  unfold active, death, birth. rewrite EaA, EaB, EdA, EbA, EdB. cbn [bind]. rewrite Hbrk. cbn [negb andb Nat.eqb].
  destruct (mem_active A n aA rad HAd HAn EaA) as [SA MA]. destruct (mem_active B m aB rad HBd HBm EaB) as [SB MB].
  apply select_spec in EdA, EbA. destruct EdA as [_ EdA], EbA as [_ EbA].
  destruct (null_ker aA aB dyA rad ker [] ims) as (ker1 & E1 & HK1); auto.
  { intros i Hi Hi'. apply EdA in Hi. rewrite Z.eqb_eq in Hi. specialize (MA i). unfold mem in MA. apply memn_In in Hi'. rewrite Hi' in MA. symmetry in MA.
    apply alive_iff in MA. unfold hi in MA. lia. }
  rewrite E1. cbn [bind].
  destruct (foldM (im_step F aB dyA biA dyB rad p 0 (b_dim A) false) ims ([], [], ker1)) as [[[ims2 np2] ker2]|] eqn:E2; [|discriminate].
  cbn [bind]. intros H. injection H as <-. cbn [fst snd].
  apply null_im in E2; auto.
  - intros j Hj. apply EbA in Hj. rewrite Z.eqb_eq in Hj. unfold lo. rewrite <- HAn, HAd. auto.
  - intros i Hi. rewrite <- MB. unfold mem. apply memn_In. auto.
  - cbn [length]. intros; lia.
  - cbn [length]. intros j Hj. apply Him. lia.
Qed.

Lemma null_loop : nullF -> forall rest st st', 
  length (fst st) = n -> (forall j, (j < n)%nat -> NI j (nth j (fst st) dI)) -> Forall NK (snd st) ->
  foldM (rad_step A B F p 0) rest st = Ok st' -> forall j, (j < n)%nat -> NI j (nth j (fst st') dI).
Proof.
  intros HN. induction rest as [|rad rest IH]; intros st st' H1 H2 H3; cbn [foldM].
  - intros H. injection H as <-. auto.
  - destruct (rad_step A B F p 0 st rad) as [st1|] eqn:E; [|discriminate]. cbn [bind]. apply null_rad in E; auto. apply IH; tauto.
Qed.

Lemma loop_result : exists ims ker, foldM (rad_step A B F p 0) radii (ims0, []) = Ok (ims, ker) /\
  finish_ims radii ims = Ok ims /\ finish_ker radii ker = Ok ker /\ result ims ker /\
  (nullF -> forall j, (j < n)%nat -> ic_death (nth j ims dI) = bA j).
Proof.
  assert (Hs : StronglySorted Z.lt radii) by apply zunique_sorted.
  set (rho0 := match radii with x :: _ => x - 1 | [] => 0 end).
  assert (Hlow : forall x, In x radii -> rho0 < x).
  { unfold rho0. destruct radii as [|x l]; [intros ? []|]. apply StronglySorted_inv in Hs. destruct Hs as [_ Hs]. rewrite Forall_forall in Hs.
    intros y [<-|Hy]; [lia|]. specialize (Hs y Hy). lia. }
  destruct (loop_inv radii radii [] rho0 (ims0, [])) as ([ims ker] & rho & E & HI & Hrho & _); auto.
  { apply incl_refl. }
  { apply radii_ends. }
  { intros r []. }
  { apply init_inv. intros i Hi. apply Hlow. apply radii_ends. auto. }
  exists ims, ker. cbn [app] in *. pose proof (result_of_inv rho ims ker HI Hrho) as R. split; auto. split; [|split; auto].
  - apply all_piv_finish_ims. rewrite (re_ilen _ _ R). apply R.
  - apply all_piv_finish_ker. apply R.
  - split; auto. intros HN j Hj. assert (Hi : forall i, (i < n)%nat -> NI i (nth i ims0 dI)).
    { intros i Hi. rewrite nth_ims0 by auto. unfold NI. cbn. auto. }
    apply (null_loop HN radii (ims0, [])) with (j := j) in E; auto.
    + cbn [fst] in E. destruct E as (_ & _ & [X|X]); [|tauto]. pose proof (re_ipiv _ _ R j Hj) as Y. unfold pv in Y. lia.
    + cbn [fst]. unfold ims0. rewrite map_length, seq_length. auto.
    + constructor.
Qed.
End Loop.
