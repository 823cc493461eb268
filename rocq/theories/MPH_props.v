(** * Lemmas and cases for the properties of [quotient] and [module_persistence_homology] *)
From Verif Require Import Base ListX Lin Gauss_model Gauss_arith Basis_model PH_model IK_model IK_lin IK_loop IK_abs IK_relabs IK_quot IK_mph IK_props Spec_PH Spec_IK.
From Coq Require Import Znumtheory.
Local Open Scope Z_scope.

(** ** [quotient] *)
Lemma quot_aux rnd p B M N : quot_input rnd p B M N -> (0 < b_dim N)%nat -> (0 < b_dim M)%nat ->
  exists Q, quotient rnd true M N p = Ok Q /\ over Q B /\ exists g,
    (forall r, quotient_basis p (born_span p (b_bars B) (b_bars M) (b_coords M) r) (born_span p (b_bars B) (b_bars N) (b_coords N) r)
       (b_dim Q) g (fun k => living (b_bars Q) r k = true)) /\
    (forall k r, (k < b_dim Q)%nat ->
       (forall x, In x (b_bars N) -> fst x <= r) \/ (forall x, In x (b_bars M) -> snd (nth k (b_bars Q) (0, 0)) <> snd x) ->
       born_span p (b_bars B) (b_bars N) (b_coords N) r (fun i => column (b_coords Q) k i - g k i)).
Proof.
  intros HQ HN HM. destruct (quotient_ok rnd p B M N HQ HN HM) as (Q & Pre & E & OQ & _ & _ & _ & _ & H1 & H2 & _).
  exists Q. split; auto. split; auto. exists (fun k => mapply (b_coords M) (column Pre k)). split; auto.
  pose proof HQ as [Hp HB _ _ (HNb & N1 & N2 & _) _ _ _ _]. assert (p_pos : 0 < p) by (destruct Hp; lia).
  destruct HB as (_ & HBd & _). destruct HNb as (_ & N0 & _).
  intros k r Hk Hor. destruct (H2 k Hk) as (c & Hc & Hd). exists (fun j => if Nat.ltb j (b_dim N) then c j else 0). split.
  - intros j Hj. destruct (Nat.ltb_spec j (b_dim N)) as [Hl|]; [|lia]. rewrite <- N0. split; auto. destruct Hor as [Hor|Hor].
    + apply Hor, nth_In. lia.
    + destruct Hd as [(x & Hx & E1)|Hd]; [elim (Hor x Hx E1)|]. elim Hj. apply Hd.
  - apply (null_0 p _ r p_pos). intros i Hi. apply living_iff in Hi. rewrite Hc by lia.
    rewrite (mapply_ext (b_coords N) (fun j => if Nat.ltb j (b_dim N) then c j else 0) c).
    + apply cong_eq. ring.
    + intros j Hj. destruct (Nat.ltb_spec j (b_dim N)); [auto|lia].
Qed.

Lemma quot_trivial_aux rnd p M N same : b_dim N = 0%nat -> quotient rnd same M N p = Ok M.
Proof. intros E. unfold quotient. rewrite E. reflexivity. Qed.

Lemma quot_zero_aux rnd p B M N : quot_input rnd p B M N -> (0 < b_dim N)%nat -> b_dim M = 0%nat ->
  quotient rnd true M N p = Err UnboundLocalError.
Proof. intros. eapply quotient_zero; eauto. Qed.

(** ** [module_persistence_homology] *)
Lemma mph_cases rnd p D Bs : chain_input rnd p D Bs ->
  (exists Hom Im Pre, module_persistence_homology rnd D Bs p = Ok (Hom, Im, Pre) /\
     length Hom = length Bs /\ length Im = length Bs /\ length Pre = length Bs /\
     (forall d, (d < length Bs)%nat -> Hdeg p D Bs d (nth d Hom empty_basis)) /\
     (forall d, (d < length Bs)%nat -> Igood p D Bs d (nth d Im empty_basis))) \/
  (module_persistence_homology rnd D Bs p = Err UnboundLocalError /\ ~ is_complex p D Bs).
Proof. apply mph_good. Qed.

Lemma mph_total_aux rnd p D Bs : chain_input rnd p D Bs -> is_complex p D Bs ->
  exists Hom Im Pre, module_persistence_homology rnd D Bs p = Ok (Hom, Im, Pre) /\
    length Hom = length Bs /\ length Im = length Bs /\ length Pre = length Bs.
Proof.
  intros HC Hc. destruct (mph_cases rnd p D Bs HC) as [(H & J & P & E & L1 & L2 & L3 & _)|[_ X]]; [|contradiction].
  exists H, J, P. auto.
Qed.

Lemma mph_fail_aux rnd p D Bs : chain_input rnd p D Bs ->
  forall e, module_persistence_homology rnd D Bs p = Err e -> e = UnboundLocalError /\ ~ is_complex p D Bs.
Proof.
  intros HC e E. destruct (mph_cases rnd p D Bs HC) as [(H & J & P & E' & _)|[E' X]]; rewrite E' in E; [discriminate|].
  injection E as <-. auto.
Qed.

Lemma mph_homology_aux rnd p D Bs : chain_input rnd p D Bs ->
  forall Hom Im Pre, module_persistence_homology rnd D Bs p = Ok (Hom, Im, Pre) ->
  forall d, (d < length Bs)%nat -> ~ over_zero Bs d ->
  ((0 < b_dim (nth d Bs empty_basis))%nat -> over (nth d Hom empty_basis) (nth d Bs empty_basis)) /\
  exists g, forall r,
    quotient_basis p (cycles_at p D Bs d r) (bounds_at p D Bs d r) (b_dim (nth d Hom empty_basis)) g
      (fun k => living (b_bars (nth d Hom empty_basis)) r k = true) /\
    ((forall y, In y (b_bars (nth (S d) Bs empty_basis)) -> fst y <= r) -> forall k, (k < b_dim (nth d Hom empty_basis))%nat ->
       bounds_at p D Bs d r (fun i => column (b_coords (nth d Hom empty_basis)) k i - g k i)).
Proof.
  intros HC Hom Im Pre E d Hd Ho. destruct (mph_cases rnd p D Bs HC) as [(H & J & P & E' & _ & _ & _ & HH & _)|[E' X]]; rewrite E' in E; [|discriminate].
  injection E as -> -> ->. destruct (HH d Hd) as [G _]. destruct (G Ho) as (G1 & g & G2 & _). split; auto. exists g. exact G2.
Qed.

Lemma mph_over_zero_aux rnd p D Bs : chain_input rnd p D Bs ->
  forall Hom Im Pre, module_persistence_homology rnd D Bs p = Ok (Hom, Im, Pre) ->
  forall d, (d < length Bs)%nat -> over_zero Bs d -> nth d Hom empty_basis = nth d Bs empty_basis.
Proof.
  intros HC Hom Im Pre E d Hd Ho. destruct (mph_cases rnd p D Bs HC) as [(H & J & P & E' & _ & _ & _ & HH & _)|[E' X]]; rewrite E' in E; [|discriminate].
  injection E as -> -> ->. destruct (HH d Hd) as (_ & G & _). auto.
Qed.

Lemma mph_image_aux rnd p D Bs : chain_input rnd p D Bs ->
  forall Hom Im Pre, module_persistence_homology rnd D Bs p = Ok (Hom, Im, Pre) ->
  forall d r v, (d < length Bs)%nat ->
  bounds_at p D Bs d r v <->
  (if Nat.eqb (b_dim (nth d Im empty_basis)) 0 then null_at p (b_bars (nth d Bs empty_basis)) r v
   else born_span p (b_bars (nth d Bs empty_basis)) (b_bars (nth d Im empty_basis)) (b_coords (nth d Im empty_basis)) r v).
Proof.
  intros HC Hom Im Pre E d r v Hd. destruct (mph_cases rnd p D Bs HC) as [(H & J & P & E' & _ & _ & _ & _ & HH)|[E' X]]; rewrite E' in E; [|discriminate].
  injection E as -> -> ->. destruct (HH d Hd) as [[E0 G]|(G0 & _ & _ & G & _)].
  - rewrite E0. cbn [Nat.eqb]. apply G.
  - destruct (Nat.eqb_spec (b_dim (nth d Im empty_basis)) 0); [lia|]. symmetry. apply G.
Qed.

(** ** When the matrices form a complex *)
Definition mulz (p : Z) (A B C : list (Z * Z)) (F G : mat) : bool :=
  forallb (fun i => forallb (fun k => (mapply F (column G k) i mod p =? 0) || (snd (nth i C (0, 0)) <=? fst (nth k A (0, 0))))
    (seq 0 (length A))) (seq 0 (length C)).

Lemma composite_null p A B C F G r x : prime p -> length A = ncols G -> length B = ncols F ->
  morphism p A B G -> morphism p B C F -> mulz p A B C F G = true ->
  null_at p C r (mapply F (Spec_IK.restr B r (mapply G (Spec_IK.restr A r x)))).
Proof.
  intros Hp HA HB HG HF Hm. assert (p_pos : 0 < p) by (destruct Hp; lia). apply (null_0 p _ r p_pos). intros i Hi.
  assert (E : cong p (mapply F (Spec_IK.restr B r (mapply G (Spec_IK.restr A r x))) i) (mapply F (mapply G (Spec_IK.restr A r x)) i)).
  { unfold mapply at 1 3. apply Zsum_cong. intros j Hj. unfold Spec_IK.restr at 1. destruct (living B r j) eqn:Ej; [reflexivity|].
    destruct (cong_dec p (get F i j) 0) as [Hz|Hz]; [rewrite Hz; apply cong_eq; ring|].
    destruct (HF i j) as [F1 F2].
    { apply living_iff in Hi. tauto. } { lia. } { intros X. apply Hz. apply mod_cong; auto. }
    apply living_iff in Hi. 
    assert (Z0 : cong p (mapply G (Spec_IK.restr A r x) j) 0); [|rewrite Z0; apply cong_eq; ring].
    unfold mapply. apply Zsum_cong0. intros k Hk. unfold Spec_IK.restr. destruct (living A r k) eqn:Ek; [|apply cong_eq; ring].
    destruct (cong_dec p (get G j k) 0) as [Hy|Hy]; [rewrite Hy; apply cong_eq; ring|]. exfalso.
    destruct (HG j k) as [G1 G2]; [lia|lia|intros X; apply Hy; apply mod_cong; auto|]. apply living_iff in Ek.
    assert (living B r j = true); [|congruence]. apply living_iff. split; [lia|]. lia. }
  rewrite E.
  assert (E2 : mapply F (mapply G (Spec_IK.restr A r x)) i = lc (ncols G) (Spec_IK.restr A r x) (fun k => mapply F (column G k)) i).
  { rewrite <- mapply_lc. apply mapply_ext. intros j Hj. apply mapply_lc_col. }
  rewrite E2. unfold lc. apply Zsum_cong0. intros k Hk. unfold Spec_IK.restr. destruct (living A r k) eqn:Ek; [|apply cong_eq; ring].
  unfold mulz in Hm. rewrite forallb_forall in Hm. apply living_iff in Hi, Ek. specialize (Hm i ltac:(apply in_seq; lia)).
  rewrite forallb_forall in Hm. specialize (Hm k ltac:(apply in_seq; lia)). apply orb_true_iff in Hm. rewrite Z.eqb_eq, Z.leb_le in Hm.
  destruct Hm as [Hm|Hm]; [|lia]. apply mod_cong in Hm; auto. rewrite Hm. apply cong_eq. ring.
Qed.

Lemma complex_aux rnd p D Bs : chain_input rnd p D Bs ->
  (forall d, (S (S d) < length Bs)%nat -> (0 < b_dim (nth (S (S d)) Bs empty_basis))%nat -> (0 < b_dim (nth (S d) Bs empty_basis))%nat -> (0 < b_dim (nth d Bs empty_basis))%nat ->
     forall i k, (i < b_dim (nth d Bs empty_basis))%nat -> (k < b_dim (nth (S (S d)) Bs empty_basis))%nat ->
     mapply (nth (S d) D (Mat 0 [])) (column (nth (S (S d)) D (Mat 0 [])) k) i mod p = 0 \/
     snd (nth i (b_bars (nth d Bs empty_basis)) (0, 0)) <= fst (nth k (b_bars (nth (S (S d)) Bs empty_basis)) (0, 0))) ->
  is_complex p D Bs.
Proof.
  intros HC Hm d r v Hd (x & Hx). pose proof (ci_prime _ _ _ _ HC) as Hp. assert (p_pos : 0 < p) by (destruct Hp; lia). cbn [cycles_at].
  destruct (Nat.eq_dec (b_dim (nth d Bs empty_basis)) 0) as [Ed|Ed].
  { destruct (ci_base _ _ _ _ HC d ltac:(lia)) as [_ [[X _]|[_ X]]]; [lia|]. rewrite X. intros i Hi. unfold living in Hi. destruct i; discriminate. }
  destruct (Nat.eq_dec (b_dim (nth (S d) Bs empty_basis)) 0) as [E1|E1].
  { destruct (ci_base _ _ _ _ HC (S d) ltac:(lia)) as [_ [[X _]|[_ X]]]; [lia|]. unfold ker_at. rewrite X. apply (null_0 p _ r p_pos). intros i Hi. unfold mapply.
    apply Zsum_cong0. intros j Hj. unfold Spec_IK.restr. replace (living [] r j) with false; [apply cong_eq; ring|]. unfold living. destruct j; reflexivity. }
  pose proof (ci_mor _ _ _ _ HC d Hd ltac:(lia) ltac:(lia)) as H1.
  assert (HB : length (b_bars (nth (S d) Bs empty_basis)) = ncols (nth (S d) D (Mat 0 []))).
  { rewrite <- (in_cols _ _ _ _ _ H1). destruct (in_A _ _ _ _ _ H1) as (_ & E & _). auto. }
  pose proof (ker_at_sub p (b_bars (nth (S d) Bs empty_basis)) (b_bars (nth d Bs empty_basis)) (nth (S d) D (Mat 0 [])) r p_pos (eq_sym HB)) as [Hsub _].
  apply (Hsub (mapply (nth (S (S d)) D (Mat 0 [])) (Spec_IK.restr (b_bars (nth (S (S d)) Bs empty_basis)) r x))).
  { apply (null_0 p _ r p_pos). intros i Hi. pose proof (null_use p _ r p_pos _ i Hx Hi) as X. cbn beta in X. destruct X as [q Hq]. exists (- q). lia. }
  destruct (le_lt_dec (length Bs) (S (S d))) as [Ht|Ht].
  { rewrite (@nth_overflow _ Bs (S (S d))) by lia. unfold ker_at. apply (null_0 p _ r p_pos). intros i Hi. unfold mapply. apply Zsum_cong0. intros j Hj.
    unfold Spec_IK.restr at 1. destruct (living _ r j); [|apply cong_eq; ring]. rewrite Zsum_0; [apply cong_eq; ring|]. intros k Hk. unfold Spec_IK.restr, empty_basis. cbn [b_bars].
    replace (living [] r k) with false; [ring|]. unfold living. destruct k; reflexivity. }
  destruct (Nat.eq_dec (b_dim (nth (S (S d)) Bs empty_basis)) 0) as [E2|E2].
  { destruct (ci_base _ _ _ _ HC (S (S d)) Ht) as [_ [[X _]|[_ X]]]; [lia|]. rewrite X. unfold ker_at. apply (null_0 p _ r p_pos). intros i Hi. unfold mapply. apply Zsum_cong0. intros j Hj.
    unfold Spec_IK.restr at 1. destruct (living _ r j); [|apply cong_eq; ring]. rewrite Zsum_0; [apply cong_eq; ring|]. intros k Hk. unfold Spec_IK.restr.
    replace (living [] r k) with false; [ring|]. unfold living. destruct k; reflexivity. }
  pose proof (ci_mor _ _ _ _ HC (S d) Ht ltac:(lia) ltac:(lia)) as H2.
  apply composite_null; auto.
  - rewrite <- (in_cols _ _ _ _ _ H2). destruct (in_A _ _ _ _ _ H2) as (_ & E & _). auto.
  - apply H2.
  - apply H1.
  - unfold mulz. apply forallb_forall. intros i Hi. apply forallb_forall. intros k Hk. apply in_seq in Hi, Hk.
    destruct (in_A _ _ _ _ _ H2) as (_ & EA & _). destruct (in_B _ _ _ _ _ H1) as (_ & EB & _).
    apply orb_true_iff. rewrite Z.eqb_eq, Z.leb_le. apply Hm; auto; lia.
Qed.

(** ** Cases *)
(** Chains given by lists of bars. *)
Definition chainb (p : Z) (D : list mat) (Bs : list (list (Z * Z))) : bool :=
  Nat.ltb 0 (length Bs) && Nat.leb (length Bs) (length D) && forallb (fun b => forallb (fun x => fst x <? snd x) b) Bs &&
  forallb (fun d => let A := nth (S d) Bs [] in let B := nth d Bs [] in let F := nth (S d) D (Mat 0 []) in
     Nat.eqb (length A) 0 || Nat.eqb (length B) 0 ||
     (Nat.eqb (length B) (nrows F) && Nat.eqb (length A) (ncols F) && wf_matb F && nonneg_matb F && morb p A B F))
    (seq 0 (length Bs - 1)).

Lemma chain_plain p D Bs : prime p -> chainb p D Bs = true -> chain_input (fun x => x) p D (map plain Bs).
Proof.
  intros Hp H. unfold chainb in H. rewrite !andb_true_iff in H. destruct H as (((H1 & H2) & H3) & H4).
  apply Nat.ltb_lt in H1. apply Nat.leb_le in H2. rewrite forallb_forall in H3, H4.
  assert (EN : forall d, (d < length Bs)%nat -> nth d (map plain Bs) empty_basis = plain (nth d Bs [])).
  { intros d Hd. apply nth_map. auto. }
  constructor; auto.
  - rewrite map_length. lia.
  - intros d Hd. rewrite map_length in Hd. rewrite EN by auto. split; [reflexivity|]. specialize (H3 (nth d Bs []) ltac:(apply nth_In; auto)).
    destruct (nth d Bs []) as [|x l] eqn:E; [right|left].
    + split; reflexivity.
    + split; [cbn; lia|]. apply plain_ok. exact H3.
  - intros d Hd HA HB. rewrite map_length in Hd. rewrite EN in * by lia. rewrite (EN d) in * by lia. cbn [b_dim plain] in HA, HB.
    specialize (H4 d ltac:(apply in_seq; lia)). cbv zeta in H4. rewrite !orb_true_iff, !andb_true_iff, !Nat.eqb_eq in H4.
    destruct H4 as [[X|X]|((((X1 & X2) & X3) & X4) & X5)]; [lia|lia|].
    apply ik_plain; auto; apply H3, nth_In; lia.
  - intros d Hd x y _ _ Hxy. exact Hxy.
Qed.

(** A complex with a zero differential at one place and cancellations at another. *)
Definition m1D := [Mat 0 []; Mat 2 [[1; 4]; [0; 1]; [1; 0]]; Mat 3 [[1; 1; 4]]].
Definition m1B := [[(0, 9); (0, 7)]; [(1, 9); (2, 8); (3, 9)]; [(3, 9)]].
Lemma m1_chain : chain_input (fun x => x) 5 m1D (map plain m1B).
Proof. apply chain_plain; [apply prime_5|vm_compute; reflexivity]. Qed.
Lemma m1_complex : is_complex 5 m1D (map plain m1B).
Proof.
  apply (complex_aux (fun x => x)); [apply m1_chain|]. intros d Hd _ _ _ i k. cbn in Hd. destruct d as [|d]; [|lia].
  cbn [map m1B nth plain b_dim length]. intros Hi Hk. destruct k as [|k]; [|lia]. left. destruct i as [|[|i]]; [reflexivity|reflexivity|lia].
Qed.

(** A returned generator which is not a cycle at the beginning of its bar. *)
Definition m2D := [Mat 0 []; Mat 1 [[1]; [4]]; Mat 2 [[0; 1]]].
Definition m2B := [[(0, 5)]; [(0, 10); (0, 10)]; [(5, 10)]].
Lemma m2_chain : chain_input (fun x => x) 5 m2D (map plain m2B).
Proof. apply chain_plain; [apply prime_5|vm_compute; reflexivity]. Qed.
Lemma m2_complex : is_complex 5 m2D (map plain m2B).
Proof.
  apply (complex_aux (fun x => x)); [apply m2_chain|]. intros d Hd _ _ _ i k. cbn in Hd. destruct d as [|d]; [|lia].
  cbn [map m2B nth plain b_dim length]. intros Hi Hk. destruct k as [|k]; [|lia]. right. destruct i as [|i]; [|lia]. cbn. lia.
Qed.

Lemma mph_coords_refuted_aux : exists rnd p D Bs, chain_input rnd p D Bs /\ is_complex p D Bs /\
  exists Hom Im Pre d k r, module_persistence_homology rnd D Bs p = Ok (Hom, Im, Pre) /\ (d < length Bs)%nat /\ ~ over_zero Bs d /\
    living (b_bars (nth d Hom empty_basis)) r k = true /\
    ~ cycles_at p D Bs d r (column (b_coords (nth d Hom empty_basis)) k).
Proof.
  exists (fun x => x), 5, m2D, (map plain m2B). split; [apply m2_chain|]. split; [apply m2_complex|].
  destruct (mph_total_aux _ _ _ _ m2_chain m2_complex) as (Hom & Im & Pre & E & _). exists Hom, Im, Pre, 1%nat, 0%nat, 0. split; auto.
  vm_compute in E. injection E as <- _ _. split; [cbn; lia|]. split; [cbn; lia|]. split; [reflexivity|].
  intros X. specialize (X 0%nat eq_refl). vm_compute in X. discriminate.
Qed.

(** The same for the quotient of a module by a submodule. *)
Definition q2B := plain [(0, 10); (0, 10)].
Definition q2M := Basis [(0, 10); (5, 10)] false 2 (Some q2B) (Mat 2 [[1; 1]; [1; 0]]) true None None.
Definition q2N := Basis [(5, 10)] false 1 (Some q2B) (Mat 2 [[0; 1]]) true None None.
Lemma q2_input : quot_input (fun x => x) 5 q2B q2M q2N.
Proof.
  constructor.
  - apply prime_5.
  - apply plain_ok. reflexivity.
  - reflexivity.
  - split; [split; [reflexivity|]; split; [reflexivity|]; intros x [<-|[<-|[]]]; cbn; lia|]. split; auto. split; auto. split; [apply wf_matb_ok; reflexivity|].
    apply nonneg_mat_ok. reflexivity.
  - split; [split; [reflexivity|]; split; [reflexivity|]; intros x [<-|[]]; cbn; lia|]. split; auto. split; auto. split; [apply wf_matb_ok; reflexivity|].
    apply nonneg_mat_ok. reflexivity.
  - reflexivity.
  - apply morb_ok. reflexivity.
  - intros i k Hi Hk _. cbn in Hi, Hk. destruct k as [|k]; [|lia]. destruct i as [|[|i]]; cbn; lia.
  - intros x y _ _ H. exact H.
Qed.

Lemma quot_coords_refuted_aux : exists rnd p B M N, quot_input rnd p B M N /\ (0 < b_dim N)%nat /\
  (forall r v, born_span p (b_bars B) (b_bars N) (b_coords N) r v -> born_span p (b_bars B) (b_bars M) (b_coords M) r v) /\
  exists Q k r, quotient rnd true M N p = Ok Q /\ living (b_bars Q) r k = true /\
    ~ born_span p (b_bars B) (b_bars M) (b_coords M) r (column (b_coords Q) k).
Proof.
  exists (fun x => x), 5, q2B, q2M, q2N. split; [apply q2_input|]. split; [cbn; lia|]. split.
  - intros r v (c & Hc & Hv). exists (fun k => match k with 0%nat => c 0%nat | 1%nat => - c 0%nat | _ => 0 end). split.
    + assert (X : c 0%nat <> 0 -> 5 <= r) by (intros X; destruct (Hc 0%nat X) as [_ Y]; cbn in Y; lia).
      intros [|[|k]] Hk; cbn [q2M b_bars length nth fst]; [|split; [lia|]; apply X; lia|lia].
      split; [lia|]. specialize (X Hk). lia.
    + assert (p5 : 0 < 5) by lia. apply (null_cong 5 _ r p5) with (2 := Hv). intros i Hi. apply living_iff in Hi. cbn [q2B plain b_bars length] in Hi.
      destruct i as [|[|i]]; [| |lia]; apply cong_eq; unfold mapply, get; cbn - [Z.mul Z.add]; ring.
  - destruct (quot_aux _ _ _ _ _ q2_input) as (Q & E & _); [cbn; lia|cbn; lia|]. exists Q, 0%nat, 0. split; auto.
    vm_compute in E. injection E as <-. split; [reflexivity|]. intros (c & Hc & Hv).
    assert (c 1%nat = 0). { destruct (Z.eq_dec (c 1%nat) 0) as [|X]; auto. destruct (Hc 1%nat X) as [_ Y]. cbn in Y. lia. }
    pose proof (Hv 0%nat eq_refl) as V0. pose proof (Hv 1%nat eq_refl) as V1. unfold mapply, get, column in V0, V1. cbn - [Z.modulo Z.mul Z.add Z.sub] in V0, V1.
    apply Z.mod_divide in V0, V1; try lia. destruct V0 as [a Ha], V1 as [b Hb]. unfold vget in Ha, Hb. cbn - [Z.mul Z.add Z.sub] in Ha, Hb. lia.
Qed.

(** Above a zero module the boundaries are not divided out. *)
Definition m3D := [Mat 0 []; Mat 0 [[]]; Mat 1 [[1]]].
Definition m3B := [[]; [(0, 10)]; [(0, 10)]].
Lemma m3_chain : chain_input (fun x => x) 5 m3D (map plain m3B).
Proof. apply chain_plain; [apply prime_5|vm_compute; reflexivity]. Qed.
Lemma m3_complex : is_complex 5 m3D (map plain m3B).
Proof. apply (complex_aux (fun x => x)); [apply m3_chain|]. intros d Hd _ _ X. cbn in Hd. destruct d as [|d]; [|lia]. cbn in X. lia. Qed.

Lemma mph_over_zero_refuted_aux : exists rnd p D Bs, chain_input rnd p D Bs /\ is_complex p D Bs /\
  exists Hom Im Pre d r, module_persistence_homology rnd D Bs p = Ok (Hom, Im, Pre) /\ (d < length Bs)%nat /\ over_zero Bs d /\
    forall g, ~ quotient_basis p (cycles_at p D Bs d r) (bounds_at p D Bs d r) (b_dim (nth d Hom empty_basis)) g
      (fun k => living (b_bars (nth d Hom empty_basis)) r k = true).
Proof.
  exists (fun x => x), 5, m3D, (map plain m3B). split; [apply m3_chain|]. split; [apply m3_complex|].
  destruct (mph_total_aux _ _ _ _ m3_chain m3_complex) as (Hom & Im & Pre & E & _). exists Hom, Im, Pre, 1%nat, 0. split; auto.
  vm_compute in E. injection E as <- _ _. split; [cbn; lia|]. split; [cbn; lia|].
  intros g (_ & _ & H). specialize (H (funit 0)). assert (X : funit 0 0%nat mod 5 = 0).
  { apply H; [| |cbn; lia].
    - intros k Hk. unfold funit. destruct (Nat.eqb_spec k 0) as [->|]; [elim Hk; reflexivity|reflexivity].
    - exists (fun j => g 0%nat j). intros i Hi. apply living_iff in Hi. cbn in Hi. destruct i as [|i]; [|lia]. unfold mapply, get, funit, Spec_IK.restr. cbn.
      match goal with |- ?x mod 5 = 0 => replace x with 0 by ring end. reflexivity. }
  vm_compute in X. discriminate.
Qed.
