(** * The representatives of the classes of all pages form staircases *)
From Coq Require Import QArith.
From Verif Require Import Base ListX SortX Lin Gauss_model Gauss_arith Gauss_solve Basis_model Basis_props PH_model PH_loop PH_lin PH_step PH_props Simp_model Spec_Simp Simp_lists Simp_diff Simp_props
  Spec_PH Spec_Rips Rips_bd Rips_chain Rips_props LC_model Spec_LC LC_props SS_model Spec_SS SS_inv SS_zero SS_page SS_cech SS_lift SS_zig SS_first SS_double SS_fplift
  IK_model IK_lin IK_abs IK_quot IK_mph Spec_IK Spec_Bars Bars Spec_E2 Blocks SS_rows Cover_model HP_model HP_table HP_row HP_gens HP_conv Spec_Zig.
From Coq Require Import Sorted Permutation Znumtheory.
Local Open Scope Z_scope.
Local Notation e0 := (LEntry [] LNil).

(** ** Dimensions of bases *)
Definition counted (b : basis) : Prop := b_dim b = length (b_bars b).

Lemma mask_filter_length {A} : forall (mask : list bool) (l : list A), length mask = length l -> length (mask_filter mask l) = length (filter (fun b => b) mask).
Proof. induction mask as [|b mask IH]; intros [|x l] H; try discriminate; [reflexivity|]. cbn in *. destruct b; cbn; rewrite IH; auto. Qed.

Lemma mk_basis_counted flat bars prev coords store broken bdiff b : mk_basis flat bars prev coords store broken bdiff = Ok b -> counted b.
Proof.
  unfold mk_basis, counted. destruct (_ && _); [discriminate|]. destruct (mk_coords _ _ _) as [c|]; [|discriminate]. cbn [bind]. destruct (_ && _); [discriminate|].
  destruct (mk_brk _ _ _) as [k|]; [|discriminate]. cbn [bind]. intros E. injection E as <-. cbn [b_dim b_bars].
  destruct (Nat.eqb_spec (length bars) 0) as [->|_]; [reflexivity|]. symmetry. apply mask_filter_length. unfold well_defined. apply map_length.
Qed.

Lemma sort_counted rnd b b' o : b_sort rnd b = Ok (b', o) -> counted b -> counted b'.
Proof.
  unfold b_sort, counted. destruct (b_flat b); [discriminate|]. intros E H.
  match type of E with bind ?x _ = _ => destruct x as [c|]; [|discriminate] end. cbn [bind] in E. injection E as <- _. cbn [b_dim b_bars].
  rewrite H. unfold take. rewrite map_length, sort_order_length. reflexivity.
Qed.

Ltac binds E := repeat match type of E with
  | bind ?x _ = Ok _ => let X := fresh "EB" in destruct x eqn:X; cbn [bind] in E; [|discriminate E]
  | (let '(_, _) := ?x in _) = Ok _ => destruct x; cbn beta iota in E
  | (if ?c then Err _ else _) = Ok _ => let X := fresh "EC" in destruct c eqn:X; [discriminate E|]
  end.

Lemma ik_counted rnd A B F p si I K Q : image_kernel rnd A B F p si = Ok (I, K, Q) -> counted I /\ forall k, K = Some k -> counted k.
Proof.
  unfold image_kernel. intros E. binds E.
  match goal with X : b_sort _ _ = Ok (?b, _) |- _ => assert (CI : counted b) by (eapply sort_counted; [exact X|]; eapply mk_basis_counted; eassumption) end.
  match type of E with (if ?c then _ else _) = _ => destruct c end.
  - injection E as <- <- _. split; [exact CI|]. intros k X. discriminate X.
  - binds E. injection E as <- <- _. split; [exact CI|]. intros k X. injection X as <-. eapply sort_counted; [eassumption|]. eapply mk_basis_counted; eassumption.
Qed.

Lemma quotient_counted rnd same M N p Q : quotient rnd same M N p = Ok Q -> counted M -> counted Q.
Proof.
  unfold quotient. destruct (Nat.eqb _ _); [intros E H; injection E as <-; exact H|]. destruct (negb same); [discriminate|]. intros E _. binds E.
  destruct (b_prev M); [|discriminate]. binds E. injection E as <-.
  match goal with X : image_kernel _ _ _ _ _ _ = Ok _ |- _ => exact (proj1 (ik_counted _ _ _ _ _ _ _ _ _ X)) end.
Qed.

Lemma mph_step_counted rnd D B B1 Im_d p i h q : mph_step rnd D B B1 Im_d p = Ok (i, h, q) -> counted B -> counted h.
Proof.
  unfold mph_step. intros E H. destruct (Nat.eqb _ _).
  - unfold empty_over in E. binds E. injection E as _ <- _. eapply mk_basis_counted; eassumption.
  - destruct (Nat.eqb _ _); [injection E as _ <- _; exact H|]. binds E. match type of E with match ?x with _ => _ end = _ => destruct x as [K|] eqn:EK; [|discriminate] end.
    binds E. injection E as _ <- _. eapply quotient_counted; [eassumption|].
    match goal with X : image_kernel _ _ _ _ _ _ = Ok _ |- _ => apply (proj2 (ik_counted _ _ _ _ _ _ _ _ _ X)); reflexivity end.
Qed.

Lemma nth_err_In {A} (l : list A) i x : nth_err l i = Ok x -> In x l.
Proof. unfold nth_err. destruct (nth_error l i) eqn:E; [|discriminate]. intros X. injection X as <-. eapply nth_error_In; eassumption. Qed.

Lemma mph_counted rnd D Bs p Hom Im Pre : module_persistence_homology rnd D Bs p = Ok (Hom, Im, Pre) -> Forall counted Bs -> Forall counted Hom.
Proof.
  unfold module_persistence_homology. destruct Bs as [|B0 Bs']; [discriminate|]. set (Bs := B0 :: Bs'). intros E F. binds E.
  assert (HL : forall d Im_d Hm I Q H I' Q', mph_loop rnd D Bs p d Im_d Hm I Q = Ok (H, I', Q') -> Forall counted Hm -> Forall counted H).
  { induction d as [|d IH]; intros Im_d Hm I Q H I' Q' EL FH; cbn [mph_loop] in EL; [injection EL as <- _ _; exact FH|]. binds EL.
    eapply IH; [exact EL|]. constructor; [|exact FH]. eapply mph_step_counted; [eassumption|]. rewrite Forall_forall in F. apply F. eapply nth_err_In; eassumption. }
  match goal with X : mph_loop _ _ _ _ _ _ _ _ _ = Ok _ |- _ => apply HL in X; [|constructor] end.
  match type of E with Ok (?h :: _, _, _) = _ => assert (CH : counted h) end.
  { match goal with X : (if _ then Ok B0 else _) = Ok _ |- _ => destruct (Nat.eqb (b_dim B0) 0) in X; [injection X as <-; rewrite Forall_forall in F; apply F; left; reflexivity|]; binds X; eapply quotient_counted; [exact X|] end.
    eapply sort_counted; [eassumption|]. eapply mk_basis_counted; eassumption. }
  injection E as <- _ _. constructor; auto.
Qed.

Definition hom_counted (P : pages) : Prop := forall k n d h, tget (h_hom P) k n d = Ok h -> counted h.

Lemma add_output_counted outs : forall P n d cp P', add_output_higher P outs n d cp = Ok P' -> hom_counted P -> Forall (fun o => counted (fst (fst o))) outs -> hom_counted P'.
Proof.
  induction outs as [|[[h im] pre] outs IH]; intros P n d cp P' E H F; cbn [add_output_higher] in E; [injection E as <-; exact H|]. binds E.
  apply IH in E; [exact E| |inversion F; auto]. intros k' n' d' h'. cbn [h_hom]. match goal with X : tset (h_hom P) _ _ _ _ = Ok _ |- _ => rewrite (tget_tset _ _ _ _ _ _ X) end.
  destruct (_ && _ && _); [intros X; injection X as <-; inversion F; auto|apply H].
Qed.

Lemma foldM_each {X St} (f : St -> X -> res St) (R : St -> Prop) l : (forall s x s', In x l -> R s -> f s x = Ok s' -> R s') ->
  forall s s', R s -> foldM f l s = Ok s' -> forall x, In x l -> exists t t', R t /\ f t x = Ok t'.
Proof.
  induction l as [|a l IH]; intros HR s s' Hs E x Hx; [destruct Hx|]. cbn [foldM] in E. destruct (f s a) as [t|] eqn:Ea; [|discriminate]. cbn [bind] in E.
  destruct Hx as [<-|Hx]; [exists s, t; auto|]. apply (IH (fun s x s' Hi => HR s x s' (or_intror Hi)) t s'); auto. apply (HR s a); auto. left. reflexivity.
Qed.

Lemma last_err_app {A} (l : list A) x : last_err l = Ok x -> exists l', l = l' ++ [x].
Proof. unfold last_err. destruct (rev l) as [|y r] eqn:E; [discriminate|]. intros X. injection X as ->. exists (rev r). rewrite <- (rev_involutive l), E. reflexivity. Qed.

(** What [sums] needs to give a result. *)
Lemma sums_refs M : forall c c', sums c M = Ok c' -> forall k g, In g (le_ref (nth k c e0)) -> (g < ncols M)%nat.
Proof.
  induction c as [|e c IH]; intros c' E k g Hg; [destruct k; destruct Hg|]. unfold sums in E. cbn [mapM] in E. binds E. destruct k as [|k]; [|eapply IH; eassumption].
  cbn [nth] in Hg. match goal with X : sums_local M e = Ok _ |- _ => unfold sums_local in X; destruct (Nat.ltb_spec 0 (length (le_ref e))) as [_|Z] in X; [|destruct (le_ref e); [destruct Hg|cbn in Z; lia]];
    destruct (forallb _ _) eqn:EF in X; [|discriminate X] end.
  rewrite forallb_forall in EF. apply EF in Hg. apply Nat.ltb_lt. exact Hg.
Qed.

Section Zig.
Variables (argsort : list Z -> list nat) (rnd : Z -> Z) (Dist : list (list Z)) (max_r max_dim p : Z)
  (IN : list (list (list nat))) (n0 : nat) (nerve : list (list simplex)).
Hypothesis HI : mv_input argsort Dist max_r max_dim p IN n0 nerve.
Variable S : ss.
Hypothesis PO : page_ok argsort rnd Dist max_r max_dim p IN n0 nerve S.
Hypothesis HN : pure_nerve n0 nerve.
Let m := Z.to_nat max_dim.
Let Hp := mv_prime _ _ _ _ _ _ _ _ HI.
Let lev n := level n0 nerve n.
Let L := length nerve.
Let p_pos : 0 < p. Proof. pose proof (prime_ge_2 p Hp). lia. Qed.
Let iff0 a : a mod p = 0 <-> cong p a 0. Proof. rewrite cong_iff_mod by lia. rewrite Zmod_0_l. tauto. Qed.
Local Notation G := (simplices IN S).
Local Notation widths := (sizes IN n0 nerve S).
Local Notation ci := (cech_image n0 nerve IN S).
Local Notation vbd := (local_bd IN S).
Local Notation closed := (local_closed p IN S).
Local Notation dims := (SS_zig.dims n0 nerve S).
Local Notation stair := (staircase p IN n0 nerve S (inhabited S)).

(** Linear combinations. *)
Lemma vbd_lin n d k N (c : nat -> Z) (b : nat -> nat -> Z) v : (forall i, v i = Zsum N (fun t => c t * b t i)) ->
  forall j, vbd n d k v j = Zsum N (fun t => c t * vbd n d k (b t) j).
Proof.
  intros H j. unfold local_bd. transitivity (Zsum (length (G n k (Datatypes.S d))) (fun i => Zsum N (fun t => c t * (get (nth d (l_Ds (loc_of S n k)) (Mat 0 [])) j i * b t i)))).
  - apply Zsum_ext. intros i _. rewrite H. rewrite <- Zsum_scale. apply Zsum_ext. intros t _. ring.
  - rewrite Zsum_swap. apply Zsum_ext. intros t _. apply Zsum_scale.
Qed.

Lemma closed_lin n d k N (c : nat -> Z) (b : nat -> nat -> Z) v : (forall t, (t < N)%nat -> closed n d k (b t)) -> (forall i, v i = Zsum N (fun t => c t * b t i)) -> closed n d k v.
Proof.
  intros Hb Hv. unfold local_closed in *. destruct d as [|d]; [exact Logic.I|]. intros j. apply iff0. rewrite (vbd_lin n d k N c b v Hv). apply Zsum_cong0. intros t Ht.
  specialize (Hb t Ht j). apply iff0 in Hb. rewrite Hb. apply cong_eq. ring.
Qed.

Lemma closed_ext n d k v v' : (forall j, v j = v' j) -> closed n d k v -> closed n d k v'.
Proof. intros H Hv. apply (closed_lin n d k 1 (fun _ => 1) (fun _ => v)); [auto|]. intros i. cbn [Zsum]. rewrite <- H. ring. Qed.

Lemma closed_add n d k v w : closed n d k v -> closed n d k w -> closed n d k (fun j => v j + w j).
Proof.
  intros Hv Hw. apply (closed_lin n d k 2 (fun _ => 1) (fun t => match t with O => v | _ => w end)); [intros [|t] _; auto|]. intros i. cbn [Zsum]. ring.
Qed.

Lemma closed_zero n d k v : (forall j, v j = 0) -> closed n d k v.
Proof. intros H. apply (closed_lin n d k 0 (fun _ => 0) (fun _ => v)); [intros; lia|]. intros i. rewrite H. reflexivity. Qed.

(** Combinations of the representatives of the local classes are closed. *)
Lemma product_closed n d k W g : (n < L)%nat -> (d < m)%nat -> (k < length (lev n))%nat ->
  closed n d k (fun j => nth j (nth g (cols (mmul (b_coords (hom_of S n k d)) W)) []) 0).
Proof.
  intros Hn Hd Hk. set (H := hom_of S n k d). destruct (loc_shape _ _ _ _ _ _ _ _ _ HI S PO n k d Hn Hk Hd) as (S1 & _ & S3). fold H in S1, S3.
  apply (closed_lin n d k (length (b_bars H)) (fun a => vget (nth g (cols W) []) a) (fun a => colv (b_coords H) a)).
  - intros a Ha. pose proof (proj2 (hom_cycle _ _ _ _ _ _ _ _ _ HI S PO n d k Hn Hd Hk a (bbirth (b_bars H) a) Ha (Z.le_refl _))) as X. destruct d; [exact Logic.I|exact X].
  - intros j. unfold mmul. cbn [cols]. destruct (Nat.lt_ge_cases g (length (cols W))) as [Hg|Hg].
    2:{ rewrite (nth_overflow (map (mvmul (b_coords H)) (cols W))) by (rewrite map_length; exact Hg). rewrite (nth_overflow (cols W)) by exact Hg. rewrite Zsum_0; [destruct j; reflexivity|]. intros a _. unfold vget. destruct a; cbn; ring. }
    rewrite (@nth_map vec vec (mvmul (b_coords H)) (cols W) g []) by exact Hg. destruct (Nat.lt_ge_cases j (nrows (b_coords H))) as [Hj|Hj].
    + rewrite vget_mvmul by exact Hj. unfold ncols. rewrite S1. apply Zsum_ext. intros a _. unfold colv. ring.
    + rewrite nth_overflow by (rewrite mvmul_length; exact Hj). symmetry. apply Zsum_0. intros a _. unfold colv. rewrite (get_out _ j a S3) by (left; exact Hj). ring.
Qed.

(** The columns of the page exist in degrees below [max_dim] only, and have windows only over non-empty levels. *)
Lemma column_some n : (n < L)%nat -> nth_err (s_cols S) n = Ok (nth n (s_cols S) no_column) /\ length (c_dim (nth n (s_cols S) no_column)) = m /\
  (lev n = [] -> c_cyc (nth n (s_cols S) no_column) = []).
Proof.
  intros Hn. split; [apply nth_err_nth; rewrite (po_cols _ _ _ _ _ _ _ _ _ _ PO); unfold L in Hn; lia|].
  pose proof (po_col _ _ _ _ _ _ _ _ _ _ PO n Hn) as EC. pose proof (po_count _ _ _ _ _ _ _ _ _ _ PO n Hn) as LC. cbv beta in EC, LC. fold (lev n) in EC, LC.
  set (C := nth n (s_cols S) no_column) in *. unfold SS_model.add_output_first in EC. destruct (Nat.ltb_spec 0 (length (c_loc C))) as [Hl|Hl].
  - binds EC. match goal with X : mapM _ _ = Ok _ |- _ => apply mapM_Ok in X; destruct X as [X _]; rewrite seq_length in X end.
    injection EC as EC. split; [rewrite <- EC; cbn [c_dim]; rewrite map_length; auto|]. intros X. rewrite X in LC. cbn in LC. lia.
  - injection EC as EC. rewrite <- EC. cbn [c_dim c_cyc]. rewrite repeat_length. auto.
Qed.

Lemma dim_some n d x : (n < L)%nat -> page_dim1 S n d = Ok x -> (d < m)%nat.
Proof. intros Hn E. unfold page_dim1 in E. destruct (column_some n Hn) as (E1 & E2 & _). rewrite E1 in E. cbn [bind] in E. apply nth_err_lt in E. lia. Qed.

Lemma cyc_some n d x : (n < L)%nat -> cycle_dims S n d = Ok x -> lev n <> [].
Proof. intros Hn E X. unfold cycle_dims in E. destruct (column_some n Hn) as (E1 & _ & E3). rewrite E1 in E. cbn [bind] in E. rewrite (E3 X) in E. destruct d; discriminate. Qed.

(** The Cech differential and its lift: when the coefficients on the first page are zero, the two cancel where there are classes. *)
Lemma lift_inv n d start R B lifts : (Datatypes.S n < L)%nat -> R <> [] -> good (widths (Datatypes.S n) d) start ->
  cech_diff_and_lift S n d start R = Ok (B, lifts) ->
  good (widths n (Datatypes.S d)) lifts /\
  (many B = false -> forall k, (k < length (lev n))%nat -> inhabited S n d k -> cancels p IN n0 nerve S n d k start lifts).
Proof.
  intros Hn HR Hg E. unfold cech_diff_and_lift in E. destruct (page_dim1 S n d) as [tot|] eqn:Edim; [|discriminate]. cbn [bind] in E.
  assert (Hd : (d < m)%nat) by (eapply dim_some; [|exact Edim]; lia).
  rewrite (spx_ok _ _ _ _ _ _ _ _ _ _ PO n) in E by (unfold L in Hn; lia). cbn [bind] in E. fold (lev n) in E.
  destruct (Nat.eqb_spec (length R) 0) as [X|_]; [apply length_zero_iff_nil in X; contradiction|].
  destruct (mapM _ (seq 0 (length (lev n)))) as [output|] eqn:EM; [|discriminate]. cbn [bind] in E.
  apply mapM_Ok in EM. rewrite seq_length in EM. destruct EM as [Lo EM].
  destruct (cycle_dims S n d) as [cyc|] eqn:Ecyc; [|discriminate]. cbn [bind] in E.
  pose proof (cyc_some n d cyc ltac:(lia) Ecyc) as Hlev.
  destruct (cyc_ok _ _ _ _ _ _ _ _ _ HI S PO n d ltac:(unfold L in Hn; lia) Hlev Hd) as [Ecyc' _]. rewrite Ecyc in Ecyc'. injection Ecyc' as ->.
  rewrite removelast_cyc, dims_length in E. fold (lev n) in E.
  assert (Hout : forall k, (k < length (lev n))%nat -> cech_diff_and_lift_local S R start n d k = Ok (nth k output None)).
  { intros k Hk. specialize (EM k 0%nat None Hk). rewrite seq_nth in EM by exact Hk. exact EM. }
  assert (Hbdim : forall k, (k < length (lev n))%nat -> nth k (dims n d) 0%nat = length (b_bars (hom_of S n k d))).
  { intros k Hk. rewrite dims_nth by auto. apply (hom0_of _ _ _ _ _ _ _ _ _ HI S PO n k d ltac:(unfold L in Hn; lia) Hk ltac:(unfold m in Hd; lia)). }
  assert (Hk_all : forall k, (k < length (lev n))%nat ->
     (b_bars (hom_of S n k d) = [] -> nth k output None = None) /\
     (b_bars (hom_of S n k d) <> [] -> has_cofaces n0 nerve n /\ exists gens coord, (forall c, cech_diff S n d start = Ok c -> forall g j, at_entry (LEntry gens coord) g j = value c k g j) /\
        zigzag Dist max_r p IN S n d k R (LEntry gens coord) (nth k output None))).
  { intros k Hk. specialize (Hout k Hk). split; intros Eb.
    - unfold cech_diff_and_lift_local in Hout. rewrite Ecyc in Hout. cbn [bind] in Hout.
      destruct (windows_ok rnd Dist max_r max_dim p IN n0 nerve S n d k Hk) as [Ep En]. cbv zeta in Ep, En. rewrite Ep in Hout. cbn [bind] in Hout. rewrite En in Hout. cbn [bind] in Hout.
      destruct (hom0_of _ _ _ _ _ _ _ _ _ HI S PO n k d ltac:(unfold L in Hn; lia) Hk ltac:(unfold m in Hd; lia)) as [_ Ed]. rewrite Ed, Eb in Hout. cbn [length] in Hout.
      rewrite Nat.add_0_r, Nat.eqb_refl in Hout. injection Hout as <-. reflexivity.
    - assert (Hc : has_cofaces n0 nerve n).
      { destruct (proj1 HN n Hn) as [Hz|Hc]; [|exact Hc]. exfalso. assert (start = []) as ->.
        { apply length_zero_iff_nil. rewrite (good_length _ _ Hg). unfold sizes. rewrite map_length, seq_length, Hz. reflexivity. }
        unfold cech_diff_and_lift_local in Hout. rewrite Ecyc in Hout. cbn [bind] in Hout.
        destruct (windows_ok rnd Dist max_r max_dim p IN n0 nerve S n d k Hk) as [Ep En]. cbv zeta in Ep, En. rewrite Ep in Hout. cbn [bind] in Hout. rewrite En in Hout. cbn [bind] in Hout.
        destruct (hom0_of _ _ _ _ _ _ _ _ _ HI S PO n k d ltac:(unfold L in Hn; lia) Hk ltac:(unfold m in Hd; lia)) as [_ Ed]. rewrite Ed in Hout.
        destruct (Nat.eqb_spec (list_sum (firstn k (dims n d))) (list_sum (firstn k (dims n d)) + length (b_bars (hom_of S n k d)))) as [X|_]; [apply Eb, length_zero_iff_nil; lia|].
        unfold cech_diff_local in Hout. destruct (nth_err (s_ndiff S) n) as [D|]; [|discriminate]. cbn [bind] in Hout. destruct (row_err D k) as [row|]; [|discriminate]. cbn [bind] in Hout.
        destruct (nonzero_entries row) as [|x xs]; [discriminate|]. cbn in Hout. unfold nth_err in Hout. destruct (fst x); discriminate. }
      split; [exact Hc|].
      destruct (zig_chain _ _ _ _ _ _ _ _ _ HI S PO n d k start Hn Hk Hd Hc Hg) as (gens & coord & E1 & _ & _ & _ & HV).
      destruct (zig_sound _ _ _ _ _ _ _ _ _ HI S PO n d k start R Hn Hk Hd Hc Hg Eb _ Hout) as (gens' & coord' & E1' & HZ).
      rewrite E1 in E1'. injection E1' as <- <-. exists gens, coord. auto. }
  set (blk := fun k => match nth k output None with Some (b, _, _) => cols b | None => repeat (vzero (length R)) (nth k (dims n d) 0%nat) end).
  set (ent := fun k => match nth k output None with Some (_, ref, LMat w rows) => LEntry ref (LMat w rows) | _ => e0 end).
  match type of E with context [foldM ?f _ _] => set (step := f) in E end.
  destruct (fold_blocks (fun b l pr => (b, l, pr)) step blk ent (dims n d) (length (lev n)) ltac:(apply dims_length)) as (lf & Ef & Ll & Nl).
  { intros k bl lf prev Hk _ HL Hf. unfold step. cbn [fst snd]. rewrite (nth_err_nth output k None) by lia. cbn [bind].
    unfold blk, ent. destruct (nth k output None) as [[[B' ref] coord]|] eqn:Eo.
    - destruct (Hk_all k Hk) as [H1 H2]. destruct (b_bars (hom_of S n k d)) as [|b0 bs] eqn:Eb; [rewrite H1 in Eo by auto; discriminate|].
      destruct (H2 ltac:(discriminate)) as (_ & gens & crd & _ & Z). rewrite Eo in Z. destruct Z as (_ & _ & _ & _ & ZL & _).
      destruct (proj2 (add_entry_ok lf k ref coord ltac:(lia)) ZL) as (l' & E' & L' & O' & N1 & N2). rewrite E'. cbn [bind].
      exists l'. split; [reflexivity|]. split; [lia|]. split; [auto|]. destruct coord as [|w rows]; [rewrite N2 by auto; auto|apply N1; discriminate].
    - exists lf. replace (prev + nth k (dims n d) 0 - prev)%nat with (nth k (dims n d) 0%nat) by lia. auto. }
  rewrite Ef in E. cbn [bind] in E. injection E as <- <-.
  assert (Hent : forall k, (k < length (lev n))%nat -> good_entry (length (G n k (Datatypes.S d))) (ent k) /\
     forall B' ref coord, nth k output None = Some (B', ref, coord) -> forall g j, at_entry (LEntry ref coord) g j = at_entry (ent k) g j).
  { intros k Hk. unfold ent. destruct (nth k output None) as [[[B' ref] coord]|] eqn:Eo.
    2:{ split; [split; [constructor|reflexivity]|]. intros; discriminate. }
    destruct (Hk_all k Hk) as [H1 H2]. destruct (b_bars (hom_of S n k d)) as [|b0 bs] eqn:Eb; [rewrite H1 in Eo by auto; discriminate|].
    destruct (H2 ltac:(discriminate)) as (_ & gens & crd & _ & Z). rewrite Eo in Z. destruct Z as (_ & _ & _ & Z1 & Z2 & Z3 & _).
    destruct coord as [|w rows].
    - split; [split; [constructor|reflexivity]|]. intros ? ? ? X. injection X as <- <- <-. intros g j. unfold at_entry. cbn [le_ref].
      cbn [lrows length] in Z2. apply length_zero_iff_nil in Z2. subst ref. reflexivity.
    - split; [auto|]. intros ? ? ? X. injection X as <- <- <-. reflexivity. }
  split.
  { apply good_intro; [unfold sizes; rewrite map_length, seq_length; exact Ll|]. unfold sizes. rewrite map_length, seq_length. intros k Hk.
    rewrite nth_map_seq by auto. rewrite Nl by auto. apply (Hent k Hk). }
  intros HB k Hk Hne g j. unfold inhabited in Hne. apply iff0. destruct (Hk_all k Hk) as [_ H2]. destruct (H2 Hne) as (Hc & gens & crd & HV & Z).
  destruct (cech_diff_ok _ _ _ _ _ _ _ _ _ HI S PO n d start Hn ltac:(unfold m in Hd; lia) Hc Hg) as (c & Ec & _). specialize (HV c Ec).
  rewrite <- (cech_value _ _ _ _ _ _ _ _ _ HI S PO n d start c k g j Hn ltac:(unfold m in Hd; lia) Hc Hg Ec Hk). rewrite <- HV.
  assert (Hz : forall b v, nth k output None = Some (b, fst v, snd v) -> forall h, get b g h = 0).
  { intros b v Eo h. unfold get, col. destruct (nth_in_or_default h (cols b) []) as [X|X]; [|rewrite X; destruct g; reflexivity].
    assert (Hin : In (nth h (cols b) []) (concat (map blk (seq 0 (length (lev n)))))).
    { apply in_concat. exists (blk k). split; [apply in_map, in_seq; lia|]. unfold blk. rewrite Eo. exact X. }
    set (v0 := nth h (cols b) []) in *. apply (In_nth _ _ []) in Hin. destruct Hin as (x & Hx & Ex).
    rewrite <- Ex. exact (many_zero _ HB g x). }
  destruct (nth k output None) as [[[B' ref] coord]|] eqn:Eo.
  - destruct Z as (_ & _ & _ & _ & _ & _ & _ & Z). destruct (Z g) as (_ & _ & Z3). destruct (Hent k Hk) as (_ & Heq). specialize (Heq _ _ _ Eo).
    assert (Ev : forall x, value lf k g x = at_entry (LEntry ref coord) g x) by (intros x; unfold value; rewrite Nl by auto; rewrite Heq; reflexivity).
    replace (vbd n d k (value lf k g) j) with (vbd n d k (at_entry (LEntry ref coord) g) j) by (unfold local_bd; apply Zsum_ext; intros x _; rewrite Ev; reflexivity).
    rewrite (Z3 j). apply Zsum_cong0. intros h _. rewrite (Hz B' (ref, coord) eq_refl). apply cong_eq. ring.
  - unfold zigzag in Z. cbn [le_ref] in Z. subst gens. change (at_entry (LEntry [] crd) g j) with 0. apply cong_eq. unfold local_bd. rewrite Zsum_0; [ring|].
    intros x _. unfold value. rewrite Nl by auto. unfold ent. rewrite Eo. cbn. ring.
Qed.

(** ** Sums *)
Lemma sums_value ws M c c' : good ws c -> sums c M = Ok c' -> good ws c' /\
  forall g, exists N co, forall k j, value c' k g j = Zsum N (fun t => co t * value c k t j).
Proof.
  intros Hg E. destruct (sums_ok ws M c Hg (sums_refs M c c' E)) as (c1 & E1 & G1 & R1 & V1). rewrite E in E1. injection E1 as <-. split; [exact G1|].
  intros g. destruct (Nat.lt_ge_cases g (nrows M)) as [Hlt|Hge].
  - exists (ncols M), (fun t => get M g t). intros k j. apply V1. exact Hlt.
  - exists 0%nat, (fun _ => 0). intros k j. cbn [Zsum]. unfold value, at_entry. rewrite find_idx_notin; [reflexivity|]. rewrite R1.
    destruct (Nat.eqb _ _); [intros []|]. intros X. apply in_seq in X. lia.
Qed.

Lemma sums_value2 ws ws' M a b a' b' : good ws a -> good ws' b -> sums a M = Ok a' -> sums b M = Ok b' ->
  forall g, exists N co, (forall k j, value a' k g j = Zsum N (fun t => co t * value a k t j)) /\ (forall k j, value b' k g j = Zsum N (fun t => co t * value b k t j)).
Proof.
  intros Ha Hb Ea Eb g.
  destruct (sums_ok ws M a Ha (sums_refs M a a' Ea)) as (c1 & E1 & G1 & R1 & V1). rewrite Ea in E1. injection E1 as <-.
  destruct (sums_ok ws' M b Hb (sums_refs M b b' Eb)) as (c2 & E2 & G2 & R2 & V2). rewrite Eb in E2. injection E2 as <-.
  destruct (Nat.lt_ge_cases g (nrows M)) as [Hlt|Hge].
  - exists (ncols M), (fun t => get M g t). split; intros k j; [apply V1|apply V2]; exact Hlt.
  - exists 0%nat, (fun _ => 0). split; intros k j; cbn [Zsum]; unfold value, at_entry; (rewrite find_idx_notin; [reflexivity|]); rewrite ?R1, ?R2;
      (destruct (Nat.eqb _ _); [intros []|]; intros X; apply in_seq in X; lia).
Qed.

Lemma sums_stair n d M reps reps' : stair n d reps -> mapM (fun c => sums c M) reps = Ok reps' -> stair n d reps' /\ length reps' = length reps.
Proof.
  intros [H1 H2 H3 H4] E. apply mapM_Ok in E. destruct E as [EL E]. split; [|exact EL]. assert (E' : forall i, (i < length reps)%nat -> sums (nth i reps []) M = Ok (nth i reps' [])) by (intros i Hi; apply E; exact Hi).
  constructor.
  - lia.
  - intros i Hi. rewrite EL in Hi. apply (proj1 (sums_value _ _ _ _ (H2 i Hi) (E' i Hi))).
  - intros k g Hk. destruct reps as [|c reps]; [destruct reps'; [|discriminate]; apply closed_zero; intros j; unfold value; cbn; destruct k; reflexivity|].
    assert (H0 : (0 < length (c :: reps))%nat) by (cbn; lia). destruct (sums_value _ _ _ _ (H2 0%nat H0) (E' 0%nat H0)) as [_ V]. destruct (V g) as (N & co & V').
    apply (closed_lin n d k N co (fun t => value (nth 0 (c :: reps) []) k t)); [intros t _; apply H3; exact Hk|]. intros j. apply V'.
  - intros i k Hi Hk Hin g j. rewrite EL in Hi. assert (Hi0 : (i < length reps)%nat) by lia.
    destruct (sums_value2 _ _ _ _ _ _ _ (H2 i Hi0) (H2 _ Hi) (E' i Hi0) (E' _ Hi) g) as (N & co & Va & Vb).
    apply iff0. rewrite (ci_lin p IN n0 nerve S (n - Datatypes.S i) (d + i) k N co (fun t s => value (nth i reps []) s t) (fun s => value (nth i reps' []) s g)) by (intros s x _ _; apply cong_eq, Va).
    rewrite (vbd_lin _ _ _ N co (fun t => value (nth (Datatypes.S i) reps []) k t) _ (Vb k)). rewrite <- Zsum_add. apply Zsum_cong0. intros t _.
    pose proof (H4 i k Hi Hk Hin t j) as X. apply iff0 in X. replace (co t * _ + co t * _) with (co t * (ci (n - Datatypes.S i) (d + i) k (fun s => value (nth i reps []) s t) j +
      vbd (n - Datatypes.S i) (d + i) k (value (nth (Datatypes.S i) reps []) k t) j)) by ring. rewrite X. apply cong_eq. ring.
Qed.

(** ** Combinations of local classes *)
Lemma combine_last {A B} (l1 : list A) : forall (l2 : list B) a b, length l1 = length l2 -> combine (l1 ++ [a]) (l2 ++ [b]) = combine l1 l2 ++ [(a, b)].
Proof. induction l1 as [|x l1 IH]; intros [|y l2] a b H; try discriminate; [reflexivity|]. cbn. rewrite IH by (cbn in H; lia). reflexivity. Qed.

(** Product with the local classes over one simplex of the nerve. *)
Lemma local_product n d k l h W Q : (n < L)%nat -> (d < m)%nat -> (k < length (lev n))%nat -> (0 < nth k (dims n d) 0)%nat ->
  the_local S n k = Ok l -> hom0 l d = Ok h -> matmul (b_coords h) W = Ok Q ->
  nrows Q = length (G n k d) /\ Forall (fun v => length v = length (G n k d)) (cols Q) /\ forall i, closed n d k (fun j => nth j (nth i (cols Q) []) 0).
Proof.
  intros Hn Hd Hk Hpos El Eh EQ. rewrite (the_local_ok _ _ _ _ _ _ _ _ _ S PO n k Hn Hk) in El. injection El as <-.
  destruct (hom0_of _ _ _ _ _ _ _ _ _ HI S PO n k d Hn Hk ltac:(unfold m in Hd; lia)) as [E1 E2]. fold (loc_of S n k) in E1. rewrite E1 in Eh. injection Eh as <-.
  rewrite dims_nth in Hpos by auto. destruct (loc_shape _ _ _ _ _ _ _ _ _ HI S PO n k d Hn Hk Hd) as (_ & S2 & _).
  assert (Hne : b_bars (hom_of S n k d) <> []) by (intros X; rewrite E2, X in Hpos; cbn in Hpos; lia). specialize (S2 Hne).
  unfold matmul in EQ. destruct (Nat.eqb _ _); [|discriminate]. injection EQ as <-. split; [exact S2|]. split; [|intros i; apply product_closed; auto].
  apply Forall_forall. intros v Hv. unfold mmul in Hv. cbn [cols] in Hv. apply in_map_iff in Hv. destruct Hv as (u & <- & _). rewrite mvmul_length. exact S2.
Qed.

Lemma entry_closed n d k ref w rows : increasing ref -> (forall i, closed n d k (fun j => nth j (nth i rows []) 0)) -> forall g, closed n d k (fun j => at_entry (LEntry ref (LMat w rows)) g j).
Proof.
  intros Hi Hc g. destruct (in_dec Nat.eq_dec g ref) as [Hin|Hno].
  - destruct (In_nth _ _ 0%nat Hin) as (i & Hlt & Ei). apply (closed_ext _ _ _ (fun j => nth j (nth i rows []) 0)); [|apply Hc].
    intros j. unfold at_entry. cbn [le_ref le_coord lrows]. rewrite <- Ei, find_idx_nth; auto. apply increasing_NoDup. exact Hi.
  - apply closed_zero. intros j. unfold at_entry. cbn [le_ref]. rewrite find_idx_notin by exact Hno. reflexivity.
Qed.

Lemma empty_closed n d k g : closed n d k (fun j => at_entry e0 g j).
Proof. apply closed_zero. reflexivity. Qed.

Lemma localize_closed n d C ref c : (n < L)%nat -> (d < m)%nat -> increasing ref -> localize S n d C ref (cumulate 0 (dims n d)) = Ok c ->
  good (widths n d) c /\ forall k g, (k < length (lev n))%nat -> closed n d k (value c k g).
Proof.
  intros Hn Hd Href E. unfold localize in E. rewrite (spx_ok _ _ _ _ _ _ _ _ _ _ PO n) in E by (unfold L in Hn; lia). cbn [bind] in E. rewrite cumulate_length in E.
  match type of E with bind ?x _ = _ => destruct x as [st|] eqn:EF; [|discriminate] end. destruct st as [c' x]. cbn [bind] in E. injection E as <-.
  set (ds := dims n d) in *. assert (Lds : length ds = length (lev n)) by apply dims_length.
  set (Q := fun (i : nat) (cc : chains) => length cc = length (lev n) /\
    forall k, (k < length (lev n))%nat -> good_entry (length (G n k d)) (nth k cc e0) /\ forall g, closed n d k (fun j => at_entry (nth k cc e0) g j)).
  assert (HQ : Q (0 + length ds)%nat (fst (c', x))).
  { refine (window_fold _ Q ds 0 0 _ _ _ _ _ _ EF).
    - intros c prev kn Hl. rewrite Hl. reflexivity.
    - intros i c st' Hi (Q1 & Q2) Hpos Es. rewrite !Nat.add_0_l in *. cbn [fst snd] in Es. rewrite Lds in Hi.
      destruct (Nat.ltb_spec (list_sum (firstn i ds)) (list_sum (firstn i ds) + nth i ds 0)%nat) as [_|X]; [|lia]. binds Es.
      match goal with X1 : the_local _ _ _ = Ok _, X2 : hom0 _ _ = Ok _, X3 : matmul _ _ = Ok ?q |- _ =>
        destruct (local_product n d i _ _ _ _ Hn Hd Hi Hpos X1 X2 X3) as (P1 & P2 & P3); set (PP := q) in * end.
      match goal with X : add_entry _ _ _ _ = Ok _ |- _ => rename X into EA end.
      destruct (Nat.eq_dec (length ref) (length (cols PP))) as [Er|Er].
      2:{ rewrite (proj1 (add_entry_ok c i ref (LMat (nrows PP) (cols PP)) ltac:(lia)) Er) in EA. discriminate. }
      destruct (proj2 (add_entry_ok c i ref (LMat (nrows PP) (cols PP)) ltac:(lia)) Er) as (c1 & E1 & L1 & O1 & N1 & _). rewrite E1 in EA. injection EA as <-. injection Es as <-. cbn [fst snd].
      split; [reflexivity|]. specialize (N1 ltac:(discriminate)). split; [lia|].
      intros k Hk. destruct (Nat.eq_dec k i) as [->|Hki]; [|rewrite O1 by auto; apply Q2; exact Hk]. rewrite N1. split; [|apply entry_closed; auto].
      split; [exact Href|]. cbn [le_coord le_ref]. auto.
    - intros i c _ _ HQ. exact HQ.
    - split; [unfold empty_chains; rewrite repeat_length; reflexivity|]. intros k _. unfold empty_chains. rewrite nth_repeat. split; [split; [constructor|reflexivity]|]. apply empty_closed. }
  cbn [fst] in HQ. destruct HQ as (Q1 & Q2). split; [|intros k g Hk; apply Q2; exact Hk].
  apply good_intro; unfold sizes; rewrite map_length, seq_length; [exact Q1|]. intros k Hk. rewrite nth_map_seq by auto. apply Q2; auto.
Qed.

(** [add_preimages] adds local cycles. *)
Lemma preimages_closed n d X c c' : (n < L)%nat -> (d < m)%nat -> good (widths n d) c -> add_preimages S n d X c = Ok c' ->
  good (widths n d) c' /\ forall k g, (k < length (lev n))%nat -> closed n d k (fun j => value c' k g j - value c k g j).
Proof.
  intros Hn Hd Hg E. unfold add_preimages in E. destruct (cycle_dims S n d) as [cyc|] eqn:Ecyc; [|discriminate]. cbn [bind] in E.
  pose proof (cyc_some n d cyc Hn Ecyc) as Hlev. destruct (cyc_ok _ _ _ _ _ _ _ _ _ HI S PO n d Hn Hlev Hd) as [Ecyc' _]. rewrite Ecyc in Ecyc'. injection Ecyc' as ->.
  set (ds := dims n d) in *. assert (Lds : length ds = length (lev n)) by apply dims_length.
  rewrite app_length, cumulate_length in E. cbn [length] in E. rewrite seq_app in E. cbn [seq] in E. rewrite combine_last in E by (rewrite seq_length, cumulate_length; reflexivity).
  rewrite foldM_app in E. match type of E with context [foldM ?f (combine _ _) ?s] => destruct (foldM f (combine (seq 0 (length ds)) (cumulate 0 ds)) s) as [st|] eqn:EF; [|discriminate] end.
  destruct st as [c1 x]. cbn [bind foldM fst snd Nat.ltb Nat.leb] in E. injection E as <-.
  assert (Lc : length c = length (lev n)) by (rewrite (good_length _ _ Hg); unfold sizes; rewrite map_length, seq_length; reflexivity).
  set (Q := fun (i : nat) (cc : chains) => length cc = length (lev n) /\
    forall k, (k < length (lev n))%nat -> good_entry (length (G n k d)) (nth k cc e0) /\ forall g, closed n d k (fun j => at_entry (nth k cc e0) g j - value c k g j)).
  assert (HQ : Q (0 + length ds)%nat (fst (c1, x))).
  { refine (window_fold _ Q ds 0 0 _ _ _ _ _ _ EF).
    - intros cc prev kn Hl. rewrite Hl. reflexivity.
    - intros i cc st' Hi (Q1 & Q2) Hpos Es. rewrite !Nat.add_0_l in *. cbn [fst snd] in Es. rewrite Lds in Hi.
      destruct (Nat.ltb_spec (list_sum (firstn i ds)) (list_sum (firstn i ds) + nth i ds 0)%nat) as [_|Y]; [|lia].
      destruct (the_local S n i) as [l|] eqn:X1; [|discriminate]. cbn [bind] in Es. destruct (hom0 l d) as [h|] eqn:X2; [|discriminate]. cbn [bind] in Es.
      destruct (matmul (b_coords h) _) as [PP|] eqn:X3; [|discriminate]. cbn [bind] in Es. destruct (local_product n d i _ _ _ _ Hn Hd Hi Hpos X1 X2 X3) as (P1 & P2 & P3).
      rewrite (nth_err_nth cc i e0) in Es by lia. cbn [bind] in Es. destruct (Q2 i Hi) as [Ge Ce]. set (e := nth i cc e0) in *.
      assert (Hnew : forall cc' e', length cc' = length cc -> (forall k, k <> i -> nth k cc' e0 = nth k cc e0) -> nth i cc' e0 = e' -> good_entry (length (G n i d)) e' ->
        (forall g, closed n d i (fun j => at_entry e' g j - at_entry e g j)) -> Q (Datatypes.S i) cc').
      { intros cc' e' L' O' N' G' C'. split; [lia|]. intros k Hk. destruct (Nat.eq_dec k i) as [->|Hki]; [|rewrite O' by exact Hki; apply Q2; exact Hk].
        rewrite N'. split; [exact G'|]. intros g. eapply closed_ext; [|apply closed_add; [apply (C' g)|apply (Ce g)]]. intros j. cbn beta. unfold e. ring. }
      destruct (Nat.ltb_spec 0 (length (le_ref e))) as [Hr|Hr].
      + unfold add_rows in Es. destruct (le_coord e) as [|w rows] eqn:Eco; [discriminate|]. destruct (Nat.eqb_spec (nrows PP) w) as [Ew|]; [|discriminate].
        destruct (Nat.eqb_spec (length (cols PP)) (length rows)) as [Er|]; [|discriminate]. cbn [andb bind] in Es. injection Es as <-. cbn [fst snd]. split; [reflexivity|].
        destruct Ge as [Gi Gc]. rewrite Eco in Gc. destruct Gc as (Gw & Gl & GF).
        assert (Hz : forall a, length (zipw vadd rows (cols PP)) = length rows /\ ((a < length rows)%nat -> nth a (zipw vadd rows (cols PP)) [] = vadd (nth a rows []) (nth a (cols PP) []))).
        { intros a. clear -Er. revert a Er. generalize (cols PP). intros ps. revert ps. induction rows as [|r rows IH]; intros [|q ps] a H; try discriminate; [split; [reflexivity|cbn; lia]|].
          cbn in H. cbn [zipw length]. split; [f_equal; apply (IH ps 0%nat); lia|]. intros Ha. destruct a; [reflexivity|]. cbn [nth]. apply IH; lia. }
        apply (Hnew _ (LEntry (le_ref e) (LMat (nrows PP) (zipw vadd rows (cols PP))))).
        * apply list_set_length.
        * intros k Hk. rewrite nth_list_set. destruct (Nat.eqb_spec k i) as [Y|_]; [contradiction|reflexivity].
        * rewrite nth_list_set, Nat.eqb_refl. destruct (Nat.ltb_spec i (length cc)); [reflexivity|lia].
        * split; [exact Gi|]. cbn [le_coord le_ref]. split; [exact P1|]. split; [rewrite (proj1 (Hz 0%nat)); exact Gl|].
          apply Forall_forall. intros v Hv. destruct (In_nth (A := vec) _ _ [] Hv) as (a & Ha' & <-).
          assert (Ha : (a < length rows)%nat) by (rewrite <- (proj1 (Hz a)); exact Ha'). rewrite (proj2 (Hz a) Ha).
          rewrite Forall_forall in GF, P2. assert (A1 : length (nth a rows []) = length (G n i d)) by (apply GF, nth_In; exact Ha).
          rewrite vadd_length; [exact A1|]. rewrite A1. symmetry. apply P2, nth_In. lia.
        * intros g. destruct (in_dec Nat.eq_dec g (le_ref e)) as [Hin|Hno].
          -- destruct (In_nth _ _ 0%nat Hin) as (a & Hlt & Ea). apply (closed_ext _ _ _ (fun j => nth j (nth a (cols PP) []) 0)); [|apply P3].
             intros j. unfold at_entry. rewrite Eco. cbn [le_ref le_coord lrows]. rewrite <- Ea, find_idx_nth by (auto; apply increasing_NoDup; exact Gi).
             rewrite (proj2 (Hz a)) by lia. rewrite Forall_forall in GF, P2. rewrite nth_vadd; [ring|]. rewrite (GF (nth a rows [])) by (apply nth_In; lia).
             symmetry. apply P2, nth_In. lia.
          -- apply closed_zero. intros j. unfold at_entry. cbn [le_ref]. rewrite find_idx_notin by exact Hno. ring.
      + destruct (add_entry cc i _ _) as [cc'|] eqn:EA; [|discriminate]. cbn [bind] in Es. injection Es as <-. cbn [fst snd]. split; [reflexivity|].
        set (ref := seq 0 (ncols PP)) in *. assert (Er : length ref = length (cols PP)) by (unfold ref; apply seq_length).
        destruct (proj2 (add_entry_ok cc i ref (LMat (nrows PP) (cols PP)) ltac:(lia)) Er) as (c2 & E1 & L1 & O1 & N1 & _). rewrite E1 in EA. injection EA as <-.
        assert (Hir : increasing ref) by (unfold ref, increasing; clear; generalize 0%nat; induction (ncols PP) as [|q IH]; intros a; cbn; constructor; [apply IH|apply Forall_forall; intros y Hy; apply in_seq in Hy; lia]).
        apply (Hnew _ (LEntry ref (LMat (nrows PP) (cols PP)))); auto; [apply N1; discriminate|split; [exact Hir|cbn [le_coord le_ref]; auto]|].
        intros g. apply (closed_ext _ _ _ (fun j => at_entry (LEntry ref (LMat (nrows PP) (cols PP))) g j)); [|apply entry_closed; auto].
        intros j. assert (at_entry e g j = 0) as ->; [|ring]. unfold at_entry. destruct (le_ref e); [reflexivity|cbn in Hr; lia].
    - intros i cc _ _ HQ. exact HQ.
    - split; [exact Lc|]. intros k Hk. split; [pose proof (good_nth _ _ k Hg) as X1; rewrite sizes_nth in X1 by exact Hk; apply X1; unfold sizes; rewrite map_length, seq_length; exact Hk|].
      intros g. apply closed_zero. intros j. unfold value. ring. }
  cbn [fst] in HQ. destruct HQ as (Q1 & Q2). split; [|intros k g Hk; apply Q2; exact Hk].
  apply good_intro; unfold sizes; rewrite map_length, seq_length; [exact Q1|]. intros k Hk. rewrite nth_map_seq by auto. apply Q2; auto.
Qed.

(** ** The representatives of the first page *)
Lemma cyc_bound n d x : (n < L)%nat -> cycle_dims S n d = Ok x -> (d < m)%nat.
Proof.
  intros Hn E. pose proof (cyc_some n d x Hn E) as Hlev. unfold cycle_dims in E. destruct (column_some n Hn) as (E1 & _ & _). rewrite E1 in E. cbn [bind] in E. apply nth_err_lt in E.
  pose proof (po_col _ _ _ _ _ _ _ _ _ _ PO n Hn) as EC. pose proof (po_count _ _ _ _ _ _ _ _ _ _ PO n Hn) as LC. cbv beta in EC, LC. fold (lev n) in EC, LC.
  set (C := nth n (s_cols S) no_column) in *. unfold SS_model.add_output_first in EC. destruct (Nat.ltb_spec 0 (length (c_loc C))) as [Hl|Hl].
  - binds EC. match goal with X : mapM _ _ = Ok _ |- _ => apply mapM_Ok in X; destruct X as [X _]; rewrite seq_length in X end.
    injection EC as EC. rewrite <- EC in E. cbn [c_cyc] in E. rewrite map_length in E. unfold m. lia.
  - exfalso. apply Hlev, length_zero_iff_nil. lia.
Qed.

Definition in_table (k n d : nat) (reps : list chains) : Prop := reps = [] \/ ((n < L)%nat /\ length reps = (Nat.min n k + 1)%nat /\ stair n d reps).
Definition table_ok (P : pages) : Prop := forall k n d reps, tget (h_reps P) k n d = Ok reps -> in_table k n d reps.

Lemma set_reps_ok P k n d x P' : table_ok P -> in_table k n d x -> set_reps P k n d x = Ok P' -> table_ok P'.
Proof.
  intros HT Hx E k' n' d' reps'. rewrite (set_reps_get _ _ _ _ _ _ E). destruct (Nat.eqb_spec k' k) as [->|]; [|apply HT].
  destruct (Nat.eqb_spec n' n) as [->|]; [|apply HT]. destruct (Nat.eqb_spec d' d) as [->|]; [|apply HT]. cbn [andb]. intros X. injection X as <-. exact Hx.
Qed.

Lemma seq_incr a n : increasing (seq a n).
Proof. revert a. induction n as [|n IH]; intros a; cbn; constructor; [apply IH|]. apply Forall_forall. intros y Hy. apply in_seq in Hy. lia. Qed.

Lemma two_page_ok P n d P' : (n < L)%nat -> table_ok P -> hom_counted P -> compute_two_page_representatives S P n d = Ok P' -> table_ok P'.
Proof.
  intros Hn HT HD E. unfold compute_two_page_representatives in E. destruct (tget (h_hom P) 1 n d) as [h|] eqn:Eh; [|discriminate]. cbn [bind] in E.
  destruct (Nat.eqb_spec (b_dim h) 0) as [_|Hdim]; [injection E as <-; exact HT|]. specialize (HD _ _ _ _ Eh).
  destruct (cycle_dims S n d) as [cyc|] eqn:Ecyc; [|discriminate]. cbn [bind] in E. pose proof (cyc_bound n d cyc Hn Ecyc) as Hd.
  destruct (cyc_ok _ _ _ _ _ _ _ _ _ HI S PO n d Hn (cyc_some n d cyc Hn Ecyc) Hd) as [Ecyc' _]. rewrite Ecyc in Ecyc'. injection Ecyc' as ->. rewrite removelast_last in E.
  destruct (localize _ _ _ _ _ _) as [rep|] eqn:El; [|discriminate]. cbn [bind] in E. destruct (localize_closed n d _ _ _ Hn Hd (seq_incr 0 (b_dim h)) El) as [Gr Cr].
  match type of E with bind ?x _ = _ => destruct x as [rc|] eqn:Er; [|discriminate] end. cbn [bind] in E. apply (set_reps_ok _ _ _ _ _ _ HT) in E; [exact E|]. right. split; [exact Hn|].
  destruct n as [|n'].
  - injection Er as <-. split; [reflexivity|]. constructor; [cbn; lia| |intros k g Hk; apply Cr; exact Hk|intros i k Hi; cbn in Hi; lia].
    intros [|i] Hi; [|cbn in Hi; lia]. rewrite Nat.add_0_r. exact Gr.
  - unfold birth_radii in Er. destruct (b_flat h); [discriminate|]. cbn [bind] in Er. destruct (cech_diff_and_lift _ _ _ _ _) as [[B lf]|] eqn:Ec; [|discriminate]. cbn [bind] in Er.
    destruct (many B) eqn:EB; [discriminate|]. injection Er as <-.
    assert (HR : map fst (b_bars h) <> []) by (intros X; apply map_eq_nil in X; red in HD; rewrite X in HD; cbn in HD; lia).
    destruct (lift_inv n' d rep _ B lf Hn HR Gr Ec) as [Gl Cl]. specialize (Cl EB). split; [cbn; lia|].
    constructor; [cbn; lia| |intros k g Hk; apply Cr; exact Hk|].
    + intros [|[|i]] Hi; [rewrite Nat.sub_0_r, Nat.add_0_r; exact Gr| |cbn in Hi; lia]. replace (Datatypes.S n' - 1)%nat with n' by lia. replace (d + 1)%nat with (Datatypes.S d) by lia. exact Gl.
    + intros [|i] k Hi Hk Hin; [|cbn in Hi; lia]. replace (Datatypes.S n' - 1)%nat with n' in * by lia. rewrite Nat.add_0_r in *. apply Cl; auto.
Qed.

(** ** The representatives of the other pages *)
Lemma stair_last n d l c c' : stair n d (l ++ [c]) -> good (widths (n - length l) (d + length l)) c' ->
  (forall k g, (k < length (lev (n - length l)))%nat -> closed (n - length l) (d + length l) k (fun j => value c' k g j - value c k g j)) -> stair n d (l ++ [c']).
Proof.
  intros [H1 H2 H3 H4] Gc Cc. assert (EL : length (l ++ [c']) = length (l ++ [c])) by (rewrite !app_length; reflexivity).
  assert (N1 : forall i, (i < length l)%nat -> nth i (l ++ [c']) [] = nth i (l ++ [c]) []) by (intros i Hi; rewrite !app_nth1 by exact Hi; reflexivity).
  assert (N2 : nth (length l) (l ++ [c']) [] = c') by apply nth_middle. assert (N3 : nth (length l) (l ++ [c]) [] = c) by apply nth_middle.
  constructor.
  - lia.
  - intros i Hi. rewrite app_length in Hi. cbn in Hi. destruct (Nat.eq_dec i (length l)) as [->|Hne]; [rewrite N2; exact Gc|]. rewrite N1 by lia. apply H2. rewrite app_length. cbn. lia.
  - intros k g Hk. specialize (H3 k g Hk). destruct l as [|a l]; [|exact H3]. cbn [length app nth] in *. rewrite Nat.sub_0_r, Nat.add_0_r in Cc.
    eapply closed_ext; [|apply closed_add; [apply (Cc k g Hk)|exact H3]]. intros j. cbn beta. ring.
  - intros i k Hi Hk Hin g j. rewrite EL in Hi. specialize (H4 i k Hi Hk Hin g j). rewrite app_length in Hi. cbn in Hi. rewrite N1 by lia.
    destruct (Nat.eq_dec (Datatypes.S i) (length l)) as [Ei|Hne]; [|rewrite N1 by lia; exact H4]. rewrite Ei in *. rewrite N2. rewrite N3 in H4. apply iff0. apply iff0 in H4.
    assert (Hb : cong p (vbd (n - length l) (d + i) k (value c' k g) j) (vbd (n - length l) (d + i) k (value c k g) j)).
    { specialize (Cc k g Hk). unfold local_closed in Cc. replace (d + length l)%nat with (Datatypes.S (d + i)) in Cc by lia. specialize (Cc j). apply iff0 in Cc.
      rewrite (vbd_lin _ _ _ 2 (fun _ => 1) (fun t => match t with O => value c k g | _ => fun j => value c' k g j - value c k g j end) (value c' k g)) by (intros x; cbn [Zsum]; ring).
      cbn [Zsum]. rewrite Cc. apply cong_eq. ring. }
    rewrite Hb. exact H4.
Qed.

Lemma higher_step_ok P n d cp bars total tp total' : (n < L)%nat -> (cp <= n)%nat -> (2 <= tp <= cp)%nat -> table_ok P -> length total = cp -> stair n d total ->
  higher_step rnd S P (n - cp) (d + cp - 1) cp bars total tp = Ok total' -> length total' = cp /\ stair n d total'.
Proof.
  intros Hn Hcp Htp HT HL HS E. unfold higher_step in E. destruct (last_err total) as [lastc|] eqn:El; [|discriminate]. cbn [bind] in E.
  destruct (last_err_app _ _ El) as (l & Et). destruct (cech_diff_and_lift _ _ _ _ _) as [[B lf]|] eqn:Ec; [|discriminate]. cbn [bind] in E.
  assert (Hd : (d + cp - 1 < m)%nat).
  { unfold cech_diff_and_lift in Ec. destruct (page_dim1 S (n - cp) (d + cp - 1)) as [t|] eqn:Ed; [|discriminate]. eapply dim_some; [|exact Ed]. lia. }
  destruct (lift_to_page _ _ _ _ _ _ _ _) as [[B2 Gm]|]; [|discriminate]. cbn [bind] in E. destruct (tget (h_preim P) _ _ _) as [pre|]; [|discriminate]. cbn [bind] in E.
  destruct (preimage_product pre Gm) as [X|]; [|discriminate]. cbn [bind] in E. destruct (any_opt Gm); [|injection E as <-; auto].
  destruct X as [X|]; [|discriminate]. assert (Ll : length l = (cp - 1)%nat) by (rewrite Et, app_length in HL; cbn in HL; lia).
  destruct (Nat.eqb_spec tp 2) as [_|Htp2].
  - destruct (add_preimages _ _ _ _ _) as [c|] eqn:EA; [|discriminate]. cbn [bind] in E. injection E as <-. rewrite Et in *. rewrite removelast_last.
    split; [rewrite app_length; cbn; lia|]. replace (1 + (n - cp))%nat with (n - length l)%nat in EA by lia. replace (d + cp - 1)%nat with (d + length l)%nat in * by lia.
    assert (Gl : good (widths (n - length l) (d + length l)) lastc).
    { pose proof (st_good _ _ _ _ _ _ _ _ _ HS (length l)) as Y. rewrite nth_middle in Y. apply Y. rewrite app_length. cbn. lia. }
    destruct (preimages_closed (n - length l) (d + length l) X lastc c ltac:(lia) Hd Gl EA) as [Gc Cc]. eapply stair_last; eauto.
  - destruct (tget (h_reps P) tp _ _) as [reps|] eqn:Er; [|discriminate]. cbn [bind] in E. destruct (mapM _ reps) as [pres|] eqn:Em; [|discriminate]. cbn [bind] in E.
    apply mapM_Ok in Em. destruct Em as [Lp _]. destruct (HT _ _ _ _ Er) as [->|(_ & Lr & _)].
    { cbn in Lp. apply length_zero_iff_nil in Lp. subst pres. cbn in E. injection E as <-. auto. }
    exfalso.
    assert (Hx : exists x, In x (combine (seq 0 (length pres)) pres) /\ (cp - tp + 1 + fst x)%nat = cp).
    { exists (nth (tp - 1) (combine (seq 0 (length pres)) pres) (0%nat, [])). assert (Hlt : (tp - 1 < length pres)%nat) by lia.
      split; [apply nth_In; rewrite combine_length, seq_length; lia|]. rewrite combine_nth by apply seq_length. cbn [fst]. rewrite seq_nth by exact Hlt. lia. }
    destruct Hx as (x & Hin & Ex).
    match type of E with foldM ?f ?q _ = _ => assert (Hpres : forall s y s', In y q -> length s = cp -> f s y = Ok s' -> length s' = cp) end.
    { intros s y s' _ Hs Ey. destruct (nth_err s _) as [a|]; [|discriminate]. cbn [bind] in Ey. destruct (add_chains a (snd y)) as [b|]; [|discriminate]. cbn [bind] in Ey.
      injection Ey as <-. rewrite list_set_length. exact Hs. }
    destruct (foldM_each _ (fun t : list chains => length t = cp) _ Hpres _ _ HL E x Hin) as (t & t' & Ht & Ef).
    rewrite Ex in Ef. destruct (nth_err t cp) as [a|] eqn:En; [|discriminate]. apply nth_err_lt in En. lia.
Qed.

Lemma higher_reps_ok P n d cp P' : (n < L)%nat -> (2 <= cp)%nat -> table_ok P -> hom_counted P -> compute_higher_representatives rnd S P n d cp = Ok P' -> table_ok P'.
Proof.
  intros Hn Hcp HT HD E. unfold compute_higher_representatives in E. destruct (tget (h_hom P) cp n d) as [h|] eqn:Eh; [|discriminate]. cbn [bind] in E.
  destruct (Nat.eqb_spec (b_dim h) 0) as [_|Hdim]; [apply (set_reps_ok _ _ _ _ _ _ HT) in E; [exact E|left; reflexivity]|]. specialize (HD _ _ _ _ Eh).
  destruct (tget (h_reps P) (cp - 1) n d) as [prev|] eqn:Er; [|discriminate]. cbn [bind] in E. destruct (mapM _ prev) as [total|] eqn:Em; [|discriminate]. cbn [bind] in E.
  destruct (HT _ _ _ _ Er) as [->|(_ & Lr & St)].
  { injection Em as <-. destruct (Nat.ltb_spec n cp) as [Hlt|Hge]; [apply (set_reps_ok _ _ _ _ _ _ HT) in E; [exact E|left; reflexivity]|].
    exfalso. assert (Hl : exists a r, rev (seq 2 (cp - 1)) = a :: r).
    { destruct (rev (seq 2 (cp - 1))) as [|a r] eqn:Ev; [|eauto]. apply (f_equal (@length nat)) in Ev. rewrite rev_length, seq_length in Ev. cbn in Ev. lia. }
    destruct Hl as (a & r & Ev). rewrite Ev in E. cbn in E. discriminate. }
  destruct (sums_stair _ _ _ _ _ St Em) as [St' Lt]. destruct (Nat.ltb_spec n cp) as [Hlt|Hge].
  { apply (set_reps_ok _ _ _ _ _ _ HT) in E; [exact E|]. right. split; [exact Hn|]. split; [lia|exact St']. }
  destruct (foldM _ (rev (seq 2 (cp - 1))) total) as [tot|] eqn:Ef; [|discriminate]. cbn [bind] in E.
  assert (Hinv : length tot = cp /\ stair n d tot).
  { refine (foldM_inv _ (fun t => length t = cp /\ stair n d t) _ _ _ _ (conj _ St') Ef); [|lia]. intros s x s' Hx [Hs1 Hs2] Es. apply in_rev, in_seq in Hx.
    eapply higher_step_ok; [exact Hn|exact Hge|split; [|]|exact HT|exact Hs1|exact Hs2|exact Es]; lia. }
  destruct Hinv as [Lt' St2]. destruct (last_err tot) as [lastc|] eqn:El; [|discriminate]. cbn [bind] in E. destruct (last_err_app _ _ El) as (l & Et).
  destruct (cech_diff_and_lift _ _ _ _ _) as [[B lf]|] eqn:Ec; [|discriminate]. cbn [bind] in E. destruct (many B) eqn:EB; [discriminate|].
  apply (set_reps_ok _ _ _ _ _ _ HT) in E; [exact E|]. right. split; [exact Hn|]. split; [rewrite app_length; cbn; lia|].
  assert (Ll : length l = (cp - 1)%nat) by (rewrite Et, app_length in Lt'; cbn in Lt'; lia).
  assert (Gl : good (widths (Datatypes.S (n - cp)) (d + cp - 1)) lastc).
  { pose proof (st_good _ _ _ _ _ _ _ _ _ St2 (length l)) as Y. rewrite Et, nth_middle in Y. replace (n - length l)%nat with (Datatypes.S (n - cp)) in Y by lia.
    replace (d + length l)%nat with (d + cp - 1)%nat in Y by lia. apply Y. rewrite app_length. cbn. lia. }
  assert (HR : births h <> []) by (unfold births; intros X; apply map_eq_nil in X; red in HD; rewrite X in HD; cbn in HD; lia).
  destruct (lift_inv (n - cp) (d + cp - 1) lastc _ B lf ltac:(lia) HR Gl Ec) as [Glf Clf]. specialize (Clf EB).
  assert (Nf : nth cp (tot ++ [lf]) [] = lf) by (rewrite <- Lt'; apply nth_middle).
  assert (Nl : nth (cp - 1) tot [] = lastc) by (rewrite Et, <- Ll; apply nth_middle).
  destruct St2 as [H1 H2 H3 H4]. constructor.
  - rewrite app_length. cbn. lia.
  - intros i Hi. rewrite app_length in Hi. cbn in Hi. destruct (Nat.eq_dec i cp) as [->|Hne]; [rewrite Nf; replace (d + cp)%nat with (Datatypes.S (d + cp - 1)) by lia; exact Glf|].
    rewrite app_nth1 by lia. apply H2. lia.
  - intros k g Hk. rewrite app_nth1 by lia. apply H3. exact Hk.
  - intros i k Hi Hk Hin. rewrite app_length in Hi. cbn in Hi. destruct (Nat.eq_dec (Datatypes.S i) cp) as [Ei|Hne].
    + assert (Ni : nth i (tot ++ [lf]) [] = nth i tot []) by (apply app_nth1; lia). rewrite Ni. rewrite Ei in *. rewrite Nf. replace i with (cp - 1)%nat in * by lia. rewrite Nl. replace (d + (cp - 1))%nat with (d + cp - 1)%nat in * by lia. apply Clf; auto.
    + rewrite !app_nth1 by lia. apply H4; auto. lia.
Qed.

(** ** All pages *)
Lemma first_row_stairs P d P' : table_ok P -> hom_counted P -> first_page_row rnd S P d = Ok P' -> table_ok P' /\ hom_counted P'.
Proof.
  intros HT HD E. unfold first_page_row in E. rewrite (po_nerve _ _ _ _ _ _ _ _ _ _ PO) in E. fold L in E.
  destruct (mapM _ (seq 0 L)) as [base|] eqn:EB in E; [|discriminate]. cbn [bind] in E. destruct (mapM _ (seq 0 L)) as [diffs|] in E; [|discriminate]. cbn [bind] in E.
  destruct (module_persistence_homology _ _ _ _) as [[[Hom Im] Pre]|] eqn:EM; [|discriminate]. cbn [bind] in E. destruct (add_output_higher _ _ _ _ _) as [P1|] eqn:EA; [|discriminate]. cbn [bind] in E.
  assert (CB : Forall counted base).
  { apply Forall_forall. intros b Hb. apply mapM_Ok in EB. rewrite seq_length in EB. destruct EB as [LB EB]. destruct (In_nth _ _ empty_basis Hb) as (i & Hi & <-). rewrite LB in Hi. specialize (EB i 0%nat empty_basis Hi).
    binds EB. eapply mk_basis_counted; exact EB. }
  pose proof (mph_counted _ _ _ _ _ _ _ EM CB) as CH.
  assert (H1 : table_ok P1 /\ hom_counted P1).
  { split; [intros k n d' reps; rewrite (add_output_reps _ _ _ _ _ _ EA); apply HT|]. eapply add_output_counted; [exact EA|exact HD|].
    apply Forall_forall. intros [[h im] pre] Hin. apply in_combine_l in Hin. apply in_combine_l in Hin. cbn. rewrite Forall_forall in CH. apply CH. exact Hin. }
  refine (foldM_inv _ (fun Q => table_ok Q /\ hom_counted Q) _ _ _ _ H1 E). intros Q n Q' Hn [T1 T2] EQ. apply in_seq in Hn.
  destruct (tget (h_hom Q) 1 n d) as [h|] eqn:Eh; [|discriminate]. cbn [bind] in EQ. destruct (Nat.ltb 0 (b_dim h)); [|injection EQ as <-; auto].
  split; [eapply two_page_ok; [|exact T1|exact T2|exact EQ]; lia|]. intros k' n' d' h'. rewrite (proj1 (two_page_hom _ _ _ _ _ EQ)). apply T2.
Qed.

Lemma positions_lt fuel : forall N n d cp nd, In nd (positions fuel N n d cp) -> (fst nd < N)%nat.
Proof.
  induction fuel as [|f IH]; intros N n d cp nd Hin; [destruct Hin|]. cbn [positions] in Hin. destruct (Nat.ltb_spec n N) as [Hlt|]; [|destruct Hin].
  destruct Hin as [<-|Hin]; [exact Hlt|]. destruct (Nat.leb _ _); [eapply IH; exact Hin|destruct Hin].
Qed.

Lemma higher_row_stairs cp P start P' : (2 <= cp)%nat -> table_ok P -> hom_counted P -> higher_page_row rnd S cp P start = Ok P' -> table_ok P' /\ hom_counted P'.
Proof.
  intros Hcp HT HD E. unfold higher_page_row in E. rewrite (po_nerve _ _ _ _ _ _ _ _ _ _ PO) in E. fold L in E. set (pos := positions (1 + L) L (fst start) (snd start) cp) in *.
  destruct (mapM _ pos) as [base|] eqn:EB in E; [|discriminate]. cbn [bind] in E. destruct (mapM _ (tl pos)) as [diffs|] in E; [|discriminate]. cbn [bind] in E.
  destruct (module_persistence_homology _ _ _ _) as [[[Hom Im] Pre]|] eqn:EM; [|discriminate]. cbn [bind] in E. destruct (add_output_higher _ _ _ _ _) as [P1|] eqn:EA; [|discriminate]. cbn [bind] in E.
  assert (CB : Forall counted base).
  { apply Forall_forall. intros b Hb. apply mapM_Ok in EB. destruct EB as [LB EB]. destruct (In_nth _ _ empty_basis Hb) as (i & Hi & <-). rewrite LB in Hi. specialize (EB i (0%nat, 0%nat) empty_basis Hi).
    eapply HD; exact EB. }
  pose proof (mph_counted _ _ _ _ _ _ _ EM CB) as CH.
  assert (H1 : table_ok P1 /\ hom_counted P1).
  { split; [intros k n d' reps; rewrite (add_output_reps _ _ _ _ _ _ EA); apply HT|]. eapply add_output_counted; [exact EA|exact HD|].
    apply Forall_forall. intros [[h im] pre] Hin. apply in_combine_l in Hin. apply in_combine_l in Hin. cbn. rewrite Forall_forall in CH. apply CH. exact Hin. }
  refine (foldM_inv _ (fun Q => table_ok Q /\ hom_counted Q) _ _ _ _ H1 E). intros Q nd Q' Hn [T1 T2] EQ. apply positions_lt in Hn.
  split; [eapply higher_reps_ok; [exact Hn|exact Hcp|exact T1|exact T2|exact EQ]|]. intros k' n' d' h'. rewrite (proj1 (higher_hom _ _ _ _ _ _ _ EQ)). apply T2.
Qed.

Lemma tget_init {A} (x : A) np cs rows k n d y : tget ([] :: repeat (repeat (repeat x rows) cs) (np - 1)) k n d = Ok y -> y = x.
Proof.
  unfold tget. intros E. destruct (nth_err _ k) as [pg|] eqn:E1; [|discriminate]. cbn [bind] in E. destruct (nth_err pg n) as [c|] eqn:E2; [|discriminate]. cbn [bind] in E.
  apply nth_err_In in E1. apply nth_err_In in E2. apply nth_err_In in E. destruct E1 as [<-|E1]; [destruct E2|]. apply repeat_spec in E1. subst pg. apply repeat_spec in E2. subst c. apply repeat_spec in E. exact E.
Qed.

Lemma pages_stairs np rows Ps P1 P2 : foldM (first_page_row rnd S) rows (init_pages np (1 + L) (s_rows S)) = Ok P1 ->
  (forall cp, In cp Ps -> (2 <= cp)%nat) ->
  foldM (fun P cp => foldM (higher_page_row rnd S cp) (flat_map (fun n => map (fun d => (n, d)) (seq 0 (s_rows S))) (seq 0 cp)) P) Ps P1 = Ok P2 -> table_ok P2.
Proof.
  intros E1 HPs E2.
  assert (H0 : table_ok (init_pages np (1 + L) (s_rows S)) /\ hom_counted (init_pages np (1 + L) (s_rows S))).
  { split; [intros k n d reps E; apply tget_init in E; left; exact E|intros k n d h E; apply tget_init in E; subst h; reflexivity]. }
  assert (H1 : table_ok P1 /\ hom_counted P1) by (refine (foldM_inv _ (fun Q => table_ok Q /\ hom_counted Q) _ _ _ _ H0 E1); intros Q d Q' _ [T1 T2] EQ; eapply first_row_stairs; eauto).
  refine (proj1 (foldM_inv _ (fun Q => table_ok Q /\ hom_counted Q) _ _ _ _ H1 E2)). intros Q cp Q' Hcp HQ EQ. apply HPs in Hcp.
  refine (foldM_inv _ (fun Q => table_ok Q /\ hom_counted Q) _ _ _ _ HQ EQ). intros Q1 st Q2 _ [T1 T2] E'. eapply higher_row_stairs; eauto.
Qed.
End Zig.

(** Whenever there is a result, the representatives kept for any page and place form a staircase of the expected length. *)
Theorem mv_stairs argsort rnd Dist max_r max_dim p IN n0 nerve S P Hs : mv_input argsort Dist max_r max_dim p IN n0 nerve -> pure_nerve n0 nerve ->
  mv_ss argsort rnd Dist max_r max_dim p IN n0 nerve = Ok (S, P, Hs) ->
  forall k n d reps, tget (h_reps P) k n d = Ok reps -> reps <> [] ->
    length reps = (Nat.min n k + 1)%nat /\ staircase p IN n0 nerve S (inhabited S) n d reps.
Proof.
  intros HI HN E k n d reps Er Hne. unfold mv_ss in E. destruct (zero_page _ _ _ _ _ _ _ _ _) as [S'|] eqn:EZ; [|discriminate]. cbn [bind] in E.
  pose proof (zero_page_ok _ rnd _ _ _ _ _ _ _ HI S' EZ) as PO.
  destruct (foldM (first_page_row rnd S') _ _) as [P1|] eqn:E1; [|discriminate]. cbn [bind] in E.
  match type of E with bind ?x _ = _ => destruct x as [P2|] eqn:E2; [|discriminate] end. cbn [bind] in E. binds E. injection E as <- <- _.
  pose proof (fun Hc => pages_stairs _ _ _ _ _ _ _ _ _ HI S' PO HN _ _ _ _ _ E1 Hc E2) as HT. specialize (HT ltac:(intros cp Hc; apply in_seq in Hc; lia)).
  destruct (HT _ _ _ _ Er) as [X|(_ & X1 & X2)]; [contradiction|auto].
Qed.
