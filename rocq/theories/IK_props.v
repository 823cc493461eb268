(** * Statements about [image_kernel] in the terms of Spec_IK *)
From Verif Require Import Base ListX SortX Lin Gauss_model Gauss_arith Gauss_col Gauss_bar Basis_model Basis_props PH_model IK_model IK_pivot IK_lin IK_phase IK_kphase IK_inv IK_loop IK_post IK_abs Spec_PH Spec_IK.
From Coq Require Import Znumtheory Sorting.Sorted.
Local Open Scope Z_scope.

Lemma last_on_piv p act v q : 0 < p -> In q act -> (last_on p act v q <-> is_piv p (on (mem act) v) q).
Proof.
  intros Hp Hq. assert (Hm : mem act q = true) by (apply memn_In; auto). unfold last_on, is_piv. split.
  - intros (_ & H1 & H2). split.
    + unfold on. rewrite Hm. rewrite <- mod_cong by auto. auto.
    + intros j Hj. unfold on, mem. destruct (memn j act) eqn:E; [|reflexivity]. rewrite <- mod_cong by auto.
      apply H2; auto. apply memn_In; auto.
  - intros [H1 H2]. split; auto. unfold on in H1. rewrite Hm in H1. rewrite <- mod_cong in H1 by auto. split; auto.
    intros i Hi Hlt. specialize (H2 i Hlt). unfold on, mem in H2. rewrite (proj2 (memn_In i act) Hi) in H2.
    apply mod_cong in H2; auto.
Qed.

Lemma pcr_aux p m n act prev r t : prime p -> StronglySorted lt act -> (forall i, In i act -> (i < m)%nat) ->
  prev_ok p act m n prev -> length r = m -> length t = n -> (forall i, 0 <= vget r i) -> (forall i, 0 <= vget t i) ->
  exists r' t' piv c, pivot_check_reduce (pcr_fuel act p) act prev r t p = Ok (r', t', piv) /\
    length r' = m /\ length t' = n /\
    (forall k, (k < length prev)%nat -> c k <> 0 -> 0 <= snd (nth k prev ([], [], 0))) /\
    (forall i, vget r' i mod p = (vget r i + Zsum (length prev) (fun k => c k * vget (fst (fst (nth k prev ([], [], 0)))) i)) mod p) /\
    (forall i, vget t' i mod p = (vget t i + Zsum (length prev) (fun k => c k * vget (snd (fst (nth k prev ([], [], 0)))) i)) mod p) /\
    (piv = -1 <-> forall i, In i act -> vget r' i mod p = 0) /\
    (piv <> -1 -> exists q, piv = Z.of_nat q /\ last_on p act (vget r') q /\ forall k, In k prev -> snd k <> piv).
Proof.
  intros Hp Hs Hlt Hprev Hr Ht Hnr Hnt. assert (p2 : 2 <= p) by (apply prime_ge_2; auto).
  destruct (pcr_spec p m act Hp Hs Hlt prev n) with (fuel := pcr_fuel act p) (r := r) (t := t)
    as (r' & t' & piv & c & E & L1 & L2 & N1 & N2 & Hc & C1 & C2 & Hfin); auto.
  - apply Forall_forall. intros [[rk tk] q] Hin. destruct (Hprev _ _ _ Hin) as (A1 & A2 & A3 & A4 & A5).
    repeat split; auto; specialize (A5 H); destruct A5 as (B1 & B5); apply last_on_piv; try lia; auto; split; auto.
  - apply Forall_forall. intros [[rk tk] q] Hin. destruct (Hprev _ _ _ Hin) as (A1 & A2 & _). auto.
  - unfold measure. destruct (index_pivot_cases (IK_pivot.restr p act r)) as [[_ E]|(k & Hk & E)]; rewrite E.
    + cbn [Z.eqb Pos.eqb]. unfold pcr_fuel. lia.
    + destruct (Z.eqb_spec (Z.of_nat k) (-1)); [lia|]. rewrite Nat2Z.id. destruct (restr_piv p m act Hp Hs Hlt r k Hk) as [Hk' _].
      rewrite restr_get by auto. unfold pcr_fuel. pose proof (Z.mod_pos_bound (vget r (nth k act 0%nat)) p ltac:(lia)). nia.
  - assert (NZ : p <> 0) by lia.
    exists r', t', piv, c. split; auto. split; auto. split; auto. split; [exact Hc|].
    split; [intros i; apply (cong_iff_mod p); auto; apply C1|]. split; [intros i; apply (cong_iff_mod p); auto; apply C2|].
    destruct Hfin as [[E1 Hz]|(q & E1 & Hq & Hin & Hne)].
    + split.
      * split; auto. intros _ i Hi. specialize (Hz i). unfold on, mem in Hz. rewrite (proj2 (memn_In i act) Hi) in Hz.
        apply mod_cong; auto; lia.
      * intros X. elim X. auto.
    + assert (HL : last_on p act (vget r') q) by (apply last_on_piv; auto; lia). split.
      * split; [intros X; exfalso; lia|]. intros X. exfalso. destruct HL as (_ & HL & _). apply HL. apply X. auto.
      * intros _. exists q. split; auto. split; auto. intros k Hk. apply In_nth with (d := ([], [], 0)) in Hk.
        destruct Hk as (j & Hj & <-). apply Hne. auto.
Qed.

(** ** The results of [image_kernel], one conclusion at a time *)
Section Results.
Variables (rnd : Z -> Z) (p : Z) (A B : basis) (F : mat).
Hypothesis HIn : ik_input rnd p A B F.

Lemma ik_total_aux : exists Im Ker Pre, image_kernel rnd A B F p 0 = Ok (Im, Some Ker, Pre) /\
  over Im B /\ over Ker A /\ nrows Pre = b_dim A /\ ncols Pre = b_dim Im.
Proof.
  destruct (image_kernel_abs rnd p A B F HIn) as (Im & Ker & Pre & E & H1 & H2 & H3 & H4 & _). exists Im, Ker, Pre. auto.
Qed.

Variables (Im Ker : basis) (Pre : mat).
Hypothesis HE : image_kernel rnd A B F p 0 = Ok (Im, Some Ker, Pre).

Lemma ik_kernel_aux r : quotient_basis p (ker_at p (b_bars A) (b_bars B) F r) (null_at p (b_bars A) r)
  (b_dim Ker) (column (b_coords Ker)) (fun k => living (b_bars Ker) r k = true).
Proof.
  destruct (image_kernel_abs rnd p A B F HIn) as (Im' & Ker' & Pre' & E & _ & _ & _ & _ & H & _).
  rewrite HE in E. inversion E; subst. apply H.
Qed.

Lemma ik_image_aux r : quotient_basis p (im_at p (b_bars A) (b_bars B) F r) (null_at p (b_bars B) r)
  (b_dim Im) (column (b_coords Im)) (fun k => living (b_bars Im) r k = true /\ ~ null_at p (b_bars B) r (column (b_coords Im) k)).
Proof.
  destruct (image_kernel_abs rnd p A B F HIn) as (Im' & Ker' & Pre' & E & _ & _ & _ & _ & _ & H & _).
  rewrite HE in E. inversion E; subst. apply H.
Qed.

Lemma ik_image_born_aux k r : (k < b_dim Im)%nat -> fst (nth k (b_bars Im) (0, 0)) <= r ->
  im_at p (b_bars A) (b_bars B) F r (column (b_coords Im) k).
Proof.
  destruct (image_kernel_abs rnd p A B F HIn) as (Im' & Ker' & Pre' & E & _ & _ & _ & _ & _ & _ & H & _).
  rewrite HE in E. inversion E; subst. apply H.
Qed.

Lemma ik_calm_aux : calm_bars (b_bars A) ->
  (forall r, quotient_basis p (im_at p (b_bars A) (b_bars B) F r) (null_at p (b_bars B) r)
     (b_dim Im) (column (b_coords Im)) (fun k => living (b_bars Im) r k = true)) /\
  (forall k i, (k < b_dim Im)%nat -> (i < b_dim B)%nat ->
     mapply F (column Pre k) i mod p = column (b_coords Im) k i mod p).
Proof.
  destruct (image_kernel_abs rnd p A B F HIn) as (Im' & Ker' & Pre' & E & _ & _ & _ & _ & _ & _ & _ & H & _).
  rewrite HE in E. inversion E; subst. apply H.
Qed.
End Results.

Lemma ik_sizes_aux rnd p A B F s : b_dim B <> nrows F \/ b_dim A <> ncols F -> image_kernel rnd A B F p s = Err ValueError.
Proof.
  intros H. unfold image_kernel.
  replace (negb (Nat.eqb (b_dim B) (nrows F)) || negb (Nat.eqb (b_dim A) (ncols F))) with true; auto.
  destruct (Nat.eqb_spec (b_dim B) (nrows F)), (Nat.eqb_spec (b_dim A) (ncols F)); cbn; auto. lia.
Qed.

(** ** Cases in which the code fails *)
Definition plain (bars : list (Z * Z)) : basis := Basis bars false (length bars) None no_coords false None None.
Lemma plain_ok bars : forallb (fun x => fst x <? snd x) bars = true -> bars_ok (plain bars).
Proof. intros H. split; auto. split; auto. intros x Hx. rewrite forallb_forall in H. apply Z.ltb_lt. auto. Qed.

Definition nonneg_matb (F : mat) : bool := forallb (forallb (Z.leb 0)) (cols F).
Lemma nonneg_mat_ok F : nonneg_matb F = true -> forall i j, 0 <= get F i j.
Proof.
  intros H i j. unfold get, col. destruct (lt_dec j (ncols F)) as [Hj|Hj].
  - unfold nonneg_matb in H. rewrite forallb_forall in H. specialize (H _ (nth_In (cols F) [] Hj)). rewrite forallb_forall in H.
    destruct (lt_dec i (length (nth j (cols F) []))) as [Hi|Hi].
    + apply Z.leb_le. apply H. unfold vget. apply nth_In. auto.
    + rewrite vget_out; lia.
  - rewrite nth_overflow by (unfold ncols, vec in *; lia). destruct i; cbn; lia.
Qed.

Definition morb (p : Z) (A B : list (Z * Z)) (F : mat) : bool :=
  forallb (fun i => forallb (fun j => (get F i j mod p =? 0) ||
    ((fst (nth i B (0, 0)) <=? fst (nth j A (0, 0))) && (snd (nth i B (0, 0)) <=? snd (nth j A (0, 0))))) (seq 0 (length A)))
    (seq 0 (length B)).
Lemma morb_ok p A B F : morb p A B F = true -> morphism p A B F.
Proof.
  intros H i j Hi Hj Hn. unfold morb in H. rewrite forallb_forall in H. assert (Ii : In i (seq 0 (length B))) by (apply in_seq; lia). specialize (H i Ii).
  rewrite forallb_forall in H. assert (Ij : In j (seq 0 (length A))) by (apply in_seq; lia). specialize (H j Ij).
  apply orb_true_iff in H. destruct H as [H|H]; [apply Z.eqb_eq in H; contradiction|].
  apply andb_true_iff in H. destruct H as [H1 H2]. apply Z.leb_le in H1, H2. auto.
Qed.

Definition wf_matb (F : mat) : bool := forallb (fun c => Nat.eqb (length c) (nrows F)) (cols F).
Lemma wf_matb_ok F : wf_matb F = true -> wf_mat F.
Proof. intros H. apply Forall_forall. intros c Hc. unfold wf_matb in H. rewrite forallb_forall in H. apply Nat.eqb_eq. auto. Qed.

Lemma ik_plain p A B F : prime p -> forallb (fun x => fst x <? snd x) A = true -> forallb (fun x => fst x <? snd x) B = true ->
  length B = nrows F -> length A = ncols F -> wf_matb F = true -> nonneg_matb F = true -> morb p A B F = true ->
  (0 < length A)%nat -> ik_input (fun x => x) p (plain A) (plain B) F.
Proof.
  intros. constructor; auto.
  - apply plain_ok; auto.
  - apply plain_ok; auto.
  - apply wf_matb_ok; auto.
  - apply nonneg_mat_ok; auto.
  - apply morb_ok; auto.
  - intros x y _ _ Hxy. exact Hxy.
Qed.

Lemma prime_5 : prime 5.
Proof. apply prime_intro; [lia|]. intros n Hn. assert (D : n = 1 \/ n = 2 \/ n = 3 \/ n = 4) by lia.
  destruct D as [-> |[-> |[-> | ->]]]; apply Zgcd_1_rel_prime; reflexivity. Qed.

(** A two-generator module whose image bars outlive the image: the generators of [B] are dead from 3 on. *)
Definition w1A := plain [(0, 10); (0, 5)].
Definition w1B := plain [(0, 3); (0, 1)].
Definition w1F := Mat 2 [[1; 0]; [4; 1]].

Lemma ik_image_refuted_aux : exists rnd p A B F, ik_input rnd p A B F /\
  exists Im Ker Pre r k, image_kernel rnd A B F p 0 = Ok (Im, Some Ker, Pre) /\
    (k < b_dim Im)%nat /\ living (b_bars Im) r k = true /\ null_at p (b_bars B) r (column (b_coords Im) k) /\
    ~ quotient_basis p (im_at p (b_bars A) (b_bars B) F r) (null_at p (b_bars B) r) (b_dim Im) (column (b_coords Im))
        (fun k => living (b_bars Im) r k = true).
Proof.
  exists (fun x => x), 5, w1A, w1B, w1F. split.
  { apply ik_plain; try reflexivity; [apply prime_5|cbn; lia]. }
  destruct (ik_total_aux (fun x => x) 5 w1A w1B w1F) as (Im & Ker & Pre & E & _).
  { apply ik_plain; try reflexivity; [apply prime_5|cbn; lia]. }
  exists Im, Ker, Pre, 4, 0%nat. split; auto.
  assert (E' := E). vm_compute in E. injection E as E1 E2 E3. subst Im. clear E2 E3.
  assert (N : null_at 5 (b_bars w1B) 4 (column (Mat 2 [[1; 0]; [0; 1]]) 0)).
  { intros i Hi. destruct i as [|[|i]]; cbn in Hi; discriminate. }
  split; [cbn; lia|]. split; [reflexivity|]. split; [exact N|].
  intros (_ & _ & H). specialize (H (funit 0)).
  assert (X : (funit 0 0%nat) mod 5 = 0).
  { apply H; [| |cbn; lia].
    - intros k Hk. unfold funit. destruct (Nat.eqb_spec k 0); auto. subst. elim Hk. reflexivity.
    - intros i Hi. destruct i as [|[|i]]; cbn in Hi; discriminate. }
  cbn in X. discriminate.
Qed.

(** A preimage which is not mapped to the image generator. *)
Definition w2A := plain [(0, 3); (1, 10); (1, 3)].
Definition w2B := plain [(0, 3); (0, 3)].
Definition w2F := Mat 2 [[0; 1]; [1; 1]; [1; 1]].

Lemma ik_preimage_refuted_aux : exists rnd p A B F, ik_input rnd p A B F /\
  exists Im Ker Pre r k, image_kernel rnd A B F p 0 = Ok (Im, Some Ker, Pre) /\
    (k < b_dim Im)%nat /\ living (b_bars Im) r k = true /\
    ~ null_at p (b_bars B) r (fun i => mapply F (column Pre k) i - column (b_coords Im) k i) /\
    ~ null_at p (b_bars B) r (fun i => mapply F (Spec_IK.restr (b_bars A) r (column Pre k)) i - column (b_coords Im) k i).
Proof.
  exists (fun x => x), 5, w2A, w2B, w2F. split.
  { apply ik_plain; try reflexivity; [apply prime_5|cbn; lia]. }
  destruct (ik_total_aux (fun x => x) 5 w2A w2B w2F) as (Im & Ker & Pre & E & _).
  { apply ik_plain; try reflexivity; [apply prime_5|cbn; lia]. }
  exists Im, Ker, Pre, 1, 1%nat. split; auto.
  vm_compute in E. injection E as E1 E2 E3. subst Im Pre. clear E2.
  split; [cbn; lia|]. split; [reflexivity|].
  split; intros H; specialize (H 1%nat eq_refl); vm_compute in H; discriminate.
Qed.

(** A matrix with a negative entry makes [inv_mod_p] raise. *)
Lemma ik_negative_refuted_aux : exists p A B F, prime p /\ bars_ok A /\ bars_ok B /\ b_brk B = None /\ b_dim B = nrows F /\
  b_dim A = ncols F /\ wf_mat F /\ morphism p (b_bars A) (b_bars B) F /\ dom_ok (fun x => x) A /\
  image_kernel (fun x => x) A B F p 0 = Err ValueError.
Proof.
  exists 5, (plain [(0, 3); (1, 10)]), (plain [(0, 3)]), (Mat 1 [[-1]; [1]]).
  split; [apply prime_5|]. split; [apply plain_ok; reflexivity|]. split; [apply plain_ok; reflexivity|].
  split; auto. split; auto. split; auto. split; [apply wf_matb_ok; reflexivity|]. split; [apply morb_ok; reflexivity|].
  split; [|vm_compute; reflexivity]. intros x y _ _ H. exact H.
Qed.

(** The empty domain: sorting the bars raises. *)
Lemma ik_empty_refuted_aux : exists p B F, prime p /\ bars_ok B /\ b_dim B = nrows F /\ ncols F = 0%nat /\
  image_kernel (fun x => x) empty_basis B F p 0 = Err IndexError.
Proof.
  exists 5, (plain [(0, 3)]), (Mat 1 []). split; [apply prime_5|]. split; [apply plain_ok; reflexivity|]. repeat split.
Qed.
