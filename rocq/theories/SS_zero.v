(** * The corner of the second page is the homology of degree 0 of the cloud *)
From Verif Require Import Base ListX SortX Lin Gauss_model Gauss_arith Basis_model PH_model PH_lin PH_props Simp_model Spec_Simp Simp_lists Simp_diff Simp_props
  Spec_PH Spec_Rips Rips_bd Rips_chain Rips_props LC_model Spec_LC LC_props SS_model Spec_SS SS_inv SS_page SS_cech SS_lift SS_zig SS_first SS_fplift SS_double
  IK_lin IK_abs Spec_Bars Bars MPH_bars Rips_bars Bars_complex Spec_MV Spec_E2 SS_rows SS_glue.
From Coq Require Import Sorted Permutation Znumtheory.
Local Open Scope Z_scope.

Section Zero.
Variables (argsort : list Z -> list nat) (rnd : Z -> Z) (Dist : list (list Z)) (max_r max_dim p : Z)
  (IN : list (list (list nat))) (n0 : nat) (nerve : list (list simplex)).
Hypothesis HI : mv_input argsort Dist max_r max_dim p IN n0 nerve.
Variable S : ss.
Hypothesis PO : page_ok argsort rnd Dist max_r max_dim p IN n0 nerve S.
Let m := Z.to_nat max_dim.
Let Hp := mv_prime _ _ _ _ _ _ _ _ HI.
Let HC := mv_cover _ _ _ _ _ _ _ _ HI.
Let G := simplices IN S.
Let p1 : 1 < p. Proof. destruct Hp. lia. Qed.
Let p_pos : 0 < p. Proof. lia. Qed.
Let iff0 a : a mod p = 0 <-> cong p a 0. Proof. apply mod_cong_0. exact p_pos. Qed.
Let ciff a b : cong p a b <-> a mod p = b mod p. Proof. symmetry. apply (cong_mod_iff p _ _ p_pos). Qed.
Let m_pos : (0 < m)%nat. Proof. pose proof (mv_max_dim _ _ _ _ _ _ _ _ HI). unfold m. lia. Qed.
Hypothesis Htop : level n0 nerve (length nerve) = [].
Let Zs r := s_cycle p (length Dist) (fun d => rips Dist d r).
Let Bs r := s_bounds p (length Dist) (fun d => rips Dist d r).
Let L0 : length (level n0 nerve 0) = n0. Proof. apply lev0_len. Qed.
Let Hn0 : (0 < length nerve)%nat. Proof. apply (nerve_pos _ _ _ _ _ _ _ _ _ HI S PO). Qed.

(** ** Subspaces *)
Lemma s_chain_sub K d : Spec_Bars.subspace p (s_chain p K d).
Proof.
  intros M c b v Hb Hv s Hs. rewrite Hv in Hs. destruct (Zsum_nz_mod p M (fun t => c t * b t s)) as (t & Ht & Hne); auto.
  apply (Hb t Ht). intros X. apply Hne. apply iff0. apply iff0 in X. rewrite X. apply cong_eq. ring.
Qed.

Lemma sbd_lin n M (c : nat -> Z) b v t : (forall s, cong p (v s) (Zsum M (fun i => c i * b i s))) -> cong p (simplicial_bd n v t) (Zsum M (fun i => c i * simplicial_bd n (b i) t)).
Proof.
  intros H. rewrite (simplicial_bd_cong p n v (fun s => Zsum M (fun i => c i * b i s)) t H). apply cong_eq.
  rewrite (simplicial_bd_Zsum n M (fun i s => c i * b i s) t). apply Zsum_ext. intros i _. unfold simplicial_bd. rewrite <- Zsum_scale. apply Zsum_ext. intros x _. destruct (memn x t); ring.
Qed.

Lemma s_bounds_sub n K d : Spec_Bars.subspace p (s_bounds p n K d).
Proof.
  intros M c b v Hb Hv. split; [apply (s_chain_sub K d M c b); auto; intros k Hk; apply Hb; auto|].
  destruct (choose_fun _ _ _ _ _ _ _ _ HI S (fun _ : list nat => 0) M (fun k w => s_chain p K (Datatypes.S d) w /\ forall t, increasing t -> length t = Datatypes.S d -> simplicial_bd n w t mod p = b k t mod p)) as (w & Hw).
  { intros k Hk. apply (Hb k Hk). }
  exists (fun s => Zsum M (fun k => c k * w k s)). split; [apply (s_chain_sub K (Datatypes.S d) M c w); [intros k Hk; apply Hw; auto|auto]|].
  intros t Ht Hl. rewrite Hv. apply ciff. rewrite (sbd_lin n M c w) by reflexivity. apply Zsum_cong. intros k Hk. apply cong_mul; [reflexivity|]. apply ciff. apply Hw; auto.
Qed.

Lemma s_chain_mono d r s c : r <= s -> s_chain p (fun d => rips Dist d r) d c -> s_chain p (fun d => rips Dist d s) d c.
Proof. intros H Hc x Hx. apply (rips_mono Dist d r); auto. Qed.
Lemma s_bounds_mono d r s c : r <= s -> Bs r d c -> Bs s d c.
Proof. intros H [H1 (w & H2 & H3)]. split; [apply (s_chain_mono d r); auto|]. exists w. split; auto. apply (s_chain_mono _ r); auto. Qed.

(** ** Gluing in any degree *)
Lemma glue_cycle d r v : (d < m)%nat -> fam_cycle p Dist IN n0 nerve S d 0 r v -> Zs r d (glue IN n0 S d v).
Proof.
  intros Hd [_ Hv]. assert (Hc : forall k, (k < n0)%nat -> local_cycle p Dist IN S 0 d k r (part v k)) by (intros k Hk; apply Hv; rewrite L0; auto).
  split; [apply (glue_chain _ _ _ _ _ _ _ _ _ HI S PO); intros k Hk; apply Hc; auto|]. intros Hpos t Ht Hl. apply iff0. destruct d as [|d]; [lia|].
  rewrite (glue_bd _ _ _ _ _ _ _ _ _ HI S PO d v t ltac:(fold m; lia) Ht). unfold glue. rewrite (Zsum_cong0 p); [apply cong_eq; ring|]. intros k Hk.
  transitivity (on_simplices (simplices IN S 0 k d) (fun _ => 0) t); [|apply cong_eq; unfold on_simplices; apply Zsum_0; intros i _; destruct (list_eq_dec _ _ _); reflexivity].
  apply on_simplices_cong. intros i Hi. unfold part at 1. cbn [fst snd]. apply iff0. apply (Hc k Hk).
Qed.

Lemma glue_bounds d r v : (d < m)%nat -> fam_bounds p Dist IN n0 nerve S d 0 r v -> Bs r d (glue IN n0 S d v).
Proof.
  intros Hd Hv. split; [apply (glue_cycle d r v Hd); apply (fam_bounds_cycle _ _ _ _ _ _ _ _ _ HI S PO d Hd Htop); auto|].
  destruct Hv as [_ Hv].
  destruct (choose_fun _ _ _ _ _ _ _ _ HI S (fun _ : nat => 0) n0 (fun k w => local_chain p Dist IN S 0 (Datatypes.S d) k r w /\ forall j, local_bd IN S 0 d k w j mod p = part v k j mod p)) as (w & Hw).
  { intros k Hk. apply Hv. rewrite L0. auto. }
  exists (fun s => dsign d * glue IN n0 S (Datatypes.S d) (fun x => w (fst x) (snd x)) s). split.
  - apply (s_chain_sub _ _ 1%nat (fun _ => dsign d) (fun _ => glue IN n0 S (Datatypes.S d) (fun x => w (fst x) (snd x)))); [|intros s; cbn [Zsum]; f_equal; ring].
    intros _ _. apply (glue_chain _ _ _ _ _ _ _ _ _ HI S PO). intros k Hk. apply (Hw k Hk).
  - intros t Ht Hl. apply ciff. rewrite sbd_scale. rewrite (glue_bd _ _ _ _ _ _ _ _ _ HI S PO d _ t ltac:(fold m; lia) Ht).
    rewrite Z.mul_assoc, dsign_sq, Z.mul_1_l. apply (glue_cong_in p). intros k j Hk. apply ciff. cbn [fst snd]. apply (Hw k Hk).
Qed.


Lemma glue_page2_bounds d r v : (d < m)%nat -> page2_bounds p Dist IN n0 nerve S d 0 r v -> Bs r d (glue IN n0 S d v).
Proof.
  intros Hd [_ (w & Hw & Hb)]. pose proof (glue_bounds d r _ Hd Hb) as H.
  apply (subs_cong p Hp _ _ _ (s_bounds_sub (length Dist) _ d)) with (2 := H). intros s. rewrite glue_sub.
  rewrite (glue_cech _ _ _ _ _ _ _ _ _ HI S PO d w s Htop) by (fold m; lia). apply cong_eq. ring.
Qed.

(** ** Degree 0 *)
Hypothesis Hf0 : fine Dist max_r IN n0 0.
Hypothesis Hf1 : fine Dist max_r IN n0 1.
Hypothesis Hlink : forall a b q, (a < n0)%nat -> (b < n0)%nat -> In q (ins_of IN 0 a) -> In q (ins_of IN 0 b) -> linked IN n0 nerve q a b.

Let hm := home IN n0.
Let U (u : nat * nat -> Z) b T := on_simplices (G 0 b 0) (part u b) T.

Lemma U_in u b T : (b < n0)%nat -> U u b T <> 0 -> In T (G 0 b 0).
Proof.
  intros Hb H. destruct (in_dec (list_eq_dec Nat.eq_dec) T (G 0 b 0)) as [X|X]; auto. exfalso. apply H. apply on_simplices_out. auto.
Qed.

Lemma G0_one n k T : (n < length nerve)%nat -> (k < length (level n0 nerve n))%nat -> In T (G n k 0) -> exists q, T = [q] /\ In q (ins_of IN n k) /\ (q < (length Dist))%nat.
Proof.
  intros Hn Hk HT. apply (GI _ _ _ _ _ _ _ _ _ HI S PO n k 0%nat T Hn Hk ltac:(fold m; lia)) in HT. destruct HT as ((H1 & _ & H2 & _) & H3).
  destruct T as [|q [|]]; cbn in H1; try lia. exists q. repeat split; [apply H3|apply H2]; cbn; auto.
Qed.

Lemma edge_nerve s : (s < length (level n0 nerve 1))%nat -> (1 < length nerve)%nat.
Proof.
  intros Hs. destruct (Nat.lt_ge_cases 1 (length nerve)) as [H|H]; auto. exfalso. assert (E : level n0 nerve 1 = []) by (replace 1%nat with (length nerve) by lia; exact Htop).
  rewrite E in Hs. cbn in Hs. lia.
Qed.

(** The chain [c] at the simplex [T], over one simplex of the nerve. *)
Definition el (n s : nat) (T : list nat) (c : Z) (x : nat * nat) : Z :=
  if Nat.eqb (fst x) s && Nat.ltb (snd x) (length (G n s 0)) then (if list_eq_dec Nat.eq_dec (nth (snd x) (G n s 0) []) T then c else 0) else 0.

Lemma el_cong n s T c c' x : cong p c c' -> cong p (el n s T c x) (el n s T c' x).
Proof. intros H. unfold el. destruct (_ && _); [|reflexivity]. destruct (list_eq_dec _ _ _); auto. reflexivity. Qed.

Lemma el_zero n s T x : el n s T 0 x = 0.
Proof. unfold el. destruct (_ && _); [|reflexivity]. destruct (list_eq_dec _ _ _); reflexivity. Qed.

Lemma el_sum n s T M (c : nat -> Z) x : Zsum M (fun t => el n s T (c t) x) = el n s T (Zsum M c) x.
Proof. unfold el. destruct (_ && _); [|apply Zsum_0; auto]. destruct (list_eq_dec _ _ _); [reflexivity|]. apply Zsum_0; auto. Qed.

Lemma el_cycle n s T c r : (s < length (level n0 nerve n))%nat -> (c mod p <> 0 -> rips Dist 0 r T) -> fam_cycle p Dist IN n0 nerve S 0 n r (el n s T c).
Proof.
  intros Hs H. split.
  - intros k j Hk. unfold el. cbn [fst snd]. destruct (Nat.eqb_spec k s); [lia|reflexivity].
  - intros k Hk. split; [|exact I]. intros j Hj. unfold part, el in Hj. cbn [fst snd] in Hj. destruct (Nat.eqb_spec k s) as [->|]; [|exfalso; apply Hj; reflexivity].
    destruct (Nat.ltb_spec j (length (G n s 0))) as [L|]; [|exfalso; apply Hj; reflexivity]. cbn [andb] in Hj. split; [exact L|].
    fold G. destruct (list_eq_dec _ _ _) as [->|]; [auto|exfalso; apply Hj; reflexivity].
Qed.

(** Families with the same image in the corner of the second page. *)
Definition moved r v v' := exists w, fam_cycle p Dist IN n0 nerve S 0 1 r w /\
  forall k j, (k < n0)%nat -> (j < length (G 0 k 0))%nat -> cong p (fam_cech IN n0 nerve S 0 0 w (k, j)) (v (k, j) - v' (k, j)).

Lemma moved_lin r M (c : nat -> Z) v v' : (forall t, (t < M)%nat -> moved r (v t) (v' t)) -> moved r (fun x => Zsum M (fun t => c t * v t x)) (fun x => Zsum M (fun t => c t * v' t x)).
Proof.
  intros H. destruct (choose_fun _ _ _ _ _ _ _ _ HI S (fun _ : nat * nat => 0) M _ H) as (w & Hw).
  exists (fun x => Zsum M (fun t => c t * w t x)). split.
  - apply (fam_cycle_sub argsort Dist max_r max_dim p IN n0 nerve HI S 0 1 r M c w); [intros t Ht; apply Hw; auto|reflexivity].
  - intros k j Hk Hj. rewrite (fc_lin _ _ _ _ _ _ _ _ HI S 0%nat m_pos 0%nat M c w) by reflexivity. rewrite <- Zsum_sub. apply Zsum_cong. intros t Ht.
    destruct (Hw t Ht) as [_ X]. rewrite X by auto. apply cong_eq. ring.
Qed.

Lemma moved_ext r u u' v v' : (forall x, cong p (u x) (u' x)) -> (forall x, cong p (v x) (v' x)) -> moved r u v -> moved r u' v'.
Proof. intros Hu Hv (w & H1 & H2). exists w. split; auto. intros k j Hk Hj. rewrite H2 by auto. rewrite Hu, Hv. reflexivity. Qed.

Lemma moved_refl r v : moved r v v.
Proof.
  exists (fun _ => 0). split.
  - apply (fam_cycle_sub argsort Dist max_r max_dim p IN n0 nerve HI S 0 1 r 0%nat (fun _ => 0) (fun _ _ => 0)); [intros t Ht; lia|reflexivity].
  - intros k j Hk Hj. rewrite (fc_lin _ _ _ _ _ _ _ _ HI S 0%nat m_pos 0%nat 0%nat (fun _ => 0) (fun _ _ => 0)) by reflexivity. apply cong_eq. cbn [Zsum]. ring.
Qed.

Lemma moved_trans r u v w : moved r u v -> moved r v w -> moved r u w.
Proof.
  intros H1 H2. pose proof (moved_lin r 2 (fun _ => 1) (fun t => match t with O => u | _ => v end) (fun t => match t with O => v | _ => w end)) as H.
  assert (X : moved r (fun x => u x + v x) (fun x => v x + w x)).
  { apply (moved_ext r (fun x => Zsum 2 (fun t => 1 * (match t with O => u | _ => v end) x)) _ (fun x => Zsum 2 (fun t => 1 * (match t with O => v | _ => w end) x))).
    - intros x. apply cong_eq. cbn [Zsum]. ring.
    - intros x. apply cong_eq. cbn [Zsum]. ring.
    - apply H. intros [|t] _; auto. }
  destruct X as (z & Z1 & Z2). exists z. split; auto. intros k j Hk Hj. rewrite Z2 by auto. apply cong_eq. ring.
Qed.

Lemma moved_sym r u v : moved r u v -> moved r v u.
Proof.
  intros H. pose proof (moved_lin r 1 (fun _ => -1) (fun _ => u) (fun _ => v) (fun _ _ => H)) as (w & H1 & H2). exists w. split; auto.
  intros k j Hk Hj. rewrite H2 by auto. apply cong_eq. cbn [Zsum]. ring.
Qed.

(** Along an edge of the nerve over which the point lies. *)
Lemma moved_edge r c s q : (s < length (level n0 nerve 1))%nat -> In q (ins_of IN 1 s) -> rips Dist 0 r [q] ->
  moved r (el 0 (ea n0 nerve s) [q] c) (el 0 (eb n0 nerve s) [q] c).
Proof.
  intros Hs Hq HR. pose proof (edge_nerve s Hs) as Hn. destruct (edge_ok _ _ _ _ _ _ _ _ HI S s Hs) as [Es Hab].
  exists (el 1 s [q] c). split; [apply el_cycle; auto|]. intros k j Hk Hj. unfold fam_cech. cbn [fst snd]. rewrite L0. pose proof (proj2 (Nat.ltb_lt k n0) Hk) as Hk'. rewrite Hk'.
  unfold cech_image. fold G. change ((-1) ^ Z.of_nat 0) with 1. rewrite Z.mul_1_l. set (T := nth j (G 0 k 0) []).
  assert (HG : In [q] (G 1 s 0)).
  { apply (GI _ _ _ _ _ _ _ _ _ HI S PO 1%nat s 0%nat [q] Hn Hs ltac:(fold m; lia)). split; [|intros x [<-|[]]; exact Hq].
    destruct HR as [(C1 & C2 & C3 & C4) _]. repeat split; auto. intros u v [<-|[]] [<-|[]] Hlt. lia. }
  rewrite (Zsum_ext _ _ (fun t => if Nat.eqb t s then nerve_bd n0 nerve 0 k s * (if list_eq_dec Nat.eq_dec T [q] then c else 0) else 0)).
  2:{ intros t Ht. destruct (Nat.eqb_spec t s) as [->|Hne].
      - f_equal. destruct (on_simplices_cases (G 1 s 0) (part (el 1 s [q] c) s) T) as [(i & Hi & E & ->)|[Hno ->]]; [apply (GN _ _ _ _ _ _ _ _ _ HI S PO); auto| |].
        + unfold part, el. cbn [fst snd]. rewrite Nat.eqb_refl, E. apply Nat.ltb_lt in Hi. rewrite Hi. reflexivity.
        + destruct (list_eq_dec Nat.eq_dec T [q]) as [E|]; [|reflexivity]. rewrite E in Hno. contradiction.
      - unfold on_simplices. rewrite Zsum_0; [ring|]. intros i _. destruct (list_eq_dec _ _ _); [|reflexivity]. unfold part, el. cbn [fst snd].
        destruct (Nat.eqb_spec t s); [contradiction|reflexivity]. }
  rewrite Zsum_ind by auto. pose proof (nb_edge _ _ _ _ _ _ _ _ HI S k s Hk Hs) as X. rewrite X.
  apply cong_eq. unfold el. cbn [fst snd].
  assert (Y : forall e, (if Nat.eqb k e && Nat.ltb j (length (G 0 e 0)) then if list_eq_dec Nat.eq_dec (nth j (G 0 e 0) []) [q] then c else 0 else 0) = (if Nat.eqb k e then 1 else 0) * (if list_eq_dec Nat.eq_dec T [q] then c else 0)).
  { intros e. destruct (Nat.eqb_spec k e) as [->|]; [|reflexivity]. rewrite (proj2 (Nat.ltb_lt j _) Hj). cbn [andb]. fold T. destruct (list_eq_dec _ _ _); ring. }
  rewrite !Y. ring.
Qed.

Lemma moved_linked r c q a b : rips Dist 0 r [q] -> linked IN n0 nerve q a b -> moved r (el 0 a [q] c) (el 0 b [q] c).
Proof.
  intros HR H. induction H as [|b b' H IH Hb Hb' He]; [apply moved_refl|]. apply (moved_trans r _ (el 0 b [q] c)); [exact IH|].
  assert (X : forall e f, In [e; f] (level n0 nerve 1) -> In q (ins_of IN 0 e) -> In q (ins_of IN 0 f) -> moved r (el 0 e [q] c) (el 0 f [q] c)).
  { intros e f Hef He1 Hf1'. destruct (In_nth _ _ [] Hef) as (s & Hs & Es). pose proof (edge_nerve s Hs) as Hn. destruct (edge_ok _ _ _ _ _ _ _ _ HI S s Hs) as [Es' _].
    rewrite Es in Es'. injection Es' as -> ->. apply moved_edge; auto. apply (cov_meet _ _ _ _ HC 1%nat s q ltac:(lia) Hs). rewrite Es. intros v [<-|[<-|[]]]; auto. }
  destruct He as [He|He]; [|apply moved_sym]; apply X; auto.
Qed.

(** A family which glues to zero is the Cech image of a family over the edges. *)
Lemma unglue u r : fam_cycle p Dist IN n0 nerve S 0 0 r u -> (forall T, length T = 1%nat -> cong p (glue IN n0 S 0 u T) 0) -> moved r u (fun _ => 0).
Proof.
  intros [Hu0 Hu] Hz. set (N := length Dist).
  assert (Hsum : forall x, cong p (u x) (Zsum n0 (fun b => 1 * Zsum N (fun q => 1 * el 0 b [q] (U u b [q]) x)))).
  { intros [k j]. destruct (Nat.lt_ge_cases k n0) as [Hk|Hk].
    2:{ assert (E : cong p (u (k, j)) 0) by (apply iff0; apply Hu0; rewrite L0; auto). rewrite E. apply cong_eq. symmetry. apply Zsum_0. intros b Hb. rewrite Zsum_0; [ring|].
        intros q _. unfold el. cbn [fst snd]. destruct (Nat.eqb_spec k b); [lia|]. cbn [andb]. ring. }
    rewrite (Zsum_ext n0 _ (fun b => if Nat.eqb b k then Zsum N (fun q => 1 * el 0 k [q] (U u k [q]) (k, j)) else 0)).
    2:{ intros b Hb. destruct (Nat.eqb_spec b k) as [->|Hne]; [ring|]. rewrite Zsum_0; [ring|]. intros q _. unfold el. cbn [fst snd]. destruct (Nat.eqb_spec k b); [lia|]. cbn [andb]. ring. }
    rewrite Zsum_ind by auto. unfold el. cbn [fst snd]. rewrite Nat.eqb_refl. cbn [andb]. destruct (Nat.ltb_spec j (length (G 0 k 0))) as [Hj|Hj].
    - destruct (G0_one 0 k (nth j (G 0 k 0) []) Hn0 ltac:(rewrite L0; auto) ltac:(apply nth_In; auto)) as (q & ET & Hq & HqN).
      rewrite ET. rewrite (Zsum_ext N _ (fun x => if Nat.eqb x q then U u k [q] else 0)).
      2:{ intros x _. destruct (list_eq_dec _ _ _) as [E|E], (Nat.eqb_spec x q) as [E'|E']; try congruence; [injection E as <-|]; ring. }
      rewrite Zsum_ind by auto. rewrite <- ET. unfold U. rewrite on_simplices_nth; [reflexivity| |auto]. apply (GN _ _ _ _ _ _ _ _ _ HI S PO); auto. rewrite L0. auto.
    - rewrite Zsum_0 by (intros; ring). apply iff0. destruct (Z.eq_dec (u (k, j) mod p) 0) as [|Hne]; auto. exfalso.
      destruct (Hu k ltac:(rewrite L0; auto)) as [Hc _]. destruct (Hc j Hne) as [Y _]. fold G in Y. lia. }
  assert (Hzero : forall x, cong p (Zsum n0 (fun b => 1 * Zsum N (fun q => 1 * el 0 (hm [q]) [q] (U u b [q]) x))) 0).
  { intros x. rewrite (Zsum_ext n0 _ (fun b => Zsum N (fun q => el 0 (hm [q]) [q] (U u b [q]) x))) by (intros b _; rewrite Z.mul_1_l; apply Zsum_ext; intros; ring).
    rewrite Zsum_swap. apply Zsum_cong0. intros q _. rewrite el_sum. rewrite (el_cong _ _ _ _ 0) by (apply (Hz [q]); reflexivity). rewrite el_zero. reflexivity. }
  apply (moved_ext r (fun x => Zsum n0 (fun b => 1 * Zsum N (fun q => 1 * el 0 b [q] (U u b [q]) x))) u (fun x => Zsum n0 (fun b => 1 * Zsum N (fun q => 1 * el 0 (hm [q]) [q] (U u b [q]) x))) (fun _ => 0)).
  - intros x. symmetry. apply Hsum.
  - exact Hzero.
  - apply (moved_lin r n0 (fun _ => 1) (fun b x => Zsum N (fun q => 1 * el 0 b [q] (U u b [q]) x)) (fun b x => Zsum N (fun q => 1 * el 0 (hm [q]) [q] (U u b [q]) x))). intros b Hb.
    apply (moved_lin r N (fun _ => 1) (fun q => el 0 b [q] (U u b [q])) (fun q => el 0 (hm [q]) [q] (U u b [q]))). intros q Hq.
    destruct (Z.eq_dec (U u b [q] mod p) 0) as [E|Hne].
    + apply iff0 in E. apply (moved_ext r (fun _ => 0) _ (fun _ => 0)); [| |apply moved_refl]; intros x; rewrite (el_cong _ _ _ _ 0 x E), el_zero; reflexivity.
    + unfold U in Hne. destruct (on_simplices_cases (G 0 b 0) (part u b) [q]) as [(i & Hi & E & Ei)|[_ E]]; [apply (GN _ _ _ _ _ _ _ _ _ HI S PO); auto; rewrite L0; auto| |rewrite E in Hne; exfalso; apply Hne; reflexivity].
      rewrite Ei in Hne. destruct (Hu b ltac:(rewrite L0; auto)) as [Hc _]. destruct (Hc i Hne) as [_ HR]. fold G in HR. rewrite E in HR.
      assert (HT : In [q] (G 0 b 0)) by (rewrite <- E; apply nth_In; auto).
      destruct (G0_one 0 b [q] Hn0 ltac:(rewrite L0; auto) HT) as (q' & Eq & Hqi & _). injection Eq as <-.
      destruct (home_in _ _ _ _ _ _ _ _ HI S [q] b Hb ltac:(intros x [<-|[]]; auto)) as [X1 X2]. fold hm in X1, X2.
      apply moved_linked; [exact HR|]. apply Hlink; auto; [lia|]. apply X2. cbn. auto.
Qed.

(** The only cycles which glue to boundaries are those of the second page. *)
Lemma glue_zero_inv r v : r < max_r -> fam_cycle p Dist IN n0 nerve S 0 0 r v -> Bs r 0 (glue IN n0 S 0 v) -> page2_bounds p Dist IN n0 nerve S 0 0 r v.
Proof.
  intros Hr Hv [_ (w & Hw & Hbd)]. split; [exact Hv|].
  set (W := cut IN n0 S 1 w).
  set (b := fun x : nat * nat => if Nat.ltb (fst x) n0 then dsign 0 * local_bd IN S 0 0 (fst x) (part W (fst x)) (snd x) else 0).
  assert (HW : forall k, local_chain p Dist IN S 0 1 k r (part W k)) by (intros k; apply cut_chain; exact Hw).
  assert (Hb : fam_bounds p Dist IN n0 nerve S 0 0 r b).
  { split.
    - intros k j Hk. rewrite L0 in Hk. unfold b. cbn [fst]. destruct (Nat.ltb_spec k n0); [lia|]. reflexivity.
    - intros k Hk. rewrite L0 in Hk. exists (fun i => dsign 0 * part W k i). split.
      + apply (local_chain_sub argsort Dist max_r max_dim p IN n0 nerve HI S 0 1 k r 1%nat (fun _ => dsign 0) (fun _ => part W k)); [auto|]. intros i. cbn [Zsum]; f_equal; ring.
      + intros j. unfold part at 2. unfold b. cbn [fst snd]. destruct (Nat.ltb_spec k n0); [|lia]. apply ciff.
        rewrite (local_bd_lin p IN S 0 0 k 1%nat (fun _ => dsign 0) (fun _ => part W k)) by (intros i; cbn [Zsum]; apply cong_eq; ring). cbn [Zsum]. apply cong_eq. ring. }
  set (u := fun x => v x - b x).
  assert (Hu : fam_cycle p Dist IN n0 nerve S 0 0 r u).
  { apply (subs_sub p); [apply (fam_cycle_sub argsort Dist max_r max_dim p IN n0 nerve HI S 0)|exact Hv|apply (fam_bounds_cycle _ _ _ _ _ _ _ _ _ HI S PO 0%nat m_pos Htop); exact Hb]. }
  assert (Hz : forall T, length T = 1%nat -> cong p (glue IN n0 S 0 u T) 0).
  { intros T HT. unfold u. rewrite glue_sub. assert (It : increasing T) by (destruct T as [|q [|]]; cbn in HT; try lia; repeat constructor).
    assert (E : cong p (glue IN n0 S 0 b T) (simplicial_bd (length Dist) w T)).
    { rewrite <- (simplicial_bd_cong p (length Dist) (glue IN n0 S 1 W) w T) by (intros s; apply (glue_cut _ _ _ _ _ _ _ _ _ HI S PO 1%nat r w s Hr ltac:(fold m; lia) Hf1 Hw)).
      rewrite (glue_bd _ _ _ _ _ _ _ _ _ HI S PO 0%nat W T m_pos It).
      assert (X : forall y, glue IN n0 S 0 (fun x => Zsum 1 (fun _ => dsign 0 * local_bd IN S 0 0 (fst x) (part W (fst x)) (snd x))) y = Zsum 1 (fun _ => dsign 0 * glue IN n0 S 0 (fun x => local_bd IN S 0 0 (fst x) (part W (fst x)) (snd x)) y)).
      { intros y. apply (glue_lin IN n0 S 0 1 (fun _ => dsign 0) (fun _ x => local_bd IN S 0 0 (fst x) (part W (fst x)) (snd x)) y). }
      cbn [Zsum] in X. rewrite <- (Z.add_0_l (dsign 0 * glue _ _ _ _ _ _)). rewrite <- X. apply (glue_cong_in p). intros k j Hk. unfold b. cbn [fst snd]. apply Nat.ltb_lt in Hk. rewrite Hk. apply cong_eq. ring. }
    rewrite E. specialize (Hbd T It HT). apply ciff in Hbd. rewrite Hbd. apply cong_eq. ring. }
  destruct (unglue u r Hu Hz) as (z & Hz1 & Hz2). exists z. split; [exact Hz1|].
  apply (subs_cong p Hp _ b _ (fam_bounds_sub argsort Dist max_r max_dim p IN n0 nerve HI S 0 0 r)) with (2 := Hb).
  intros [k j]. destruct (Nat.lt_ge_cases k n0) as [Hk|Hk].
  - destruct (Nat.lt_ge_cases j (length (G 0 k 0))) as [Hj|Hj].
    + rewrite (Hz2 k j Hk Hj). apply cong_eq. unfold u. ring.
    + assert (X : forall f, fam_cycle p Dist IN n0 nerve S 0 0 r f -> cong p (f (k, j)) 0).
      { intros f [_ Hf]. apply iff0. destruct (Z.eq_dec (f (k, j) mod p) 0) as [|Hne]; auto. exfalso. destruct (Hf k ltac:(rewrite L0; auto)) as [Hc _]. destruct (Hc j Hne) as [Y _]. fold G in Y. lia. }
      rewrite (X v Hv). rewrite (X b) by (apply (fam_bounds_cycle _ _ _ _ _ _ _ _ _ HI S PO 0%nat m_pos Htop); exact Hb).
      rewrite (X (fam_cech IN n0 nerve S 0 0 z)) by (apply (fc_cycle _ _ _ _ _ _ _ _ _ HI S PO 0%nat m_pos Htop); exact Hz1). apply cong_eq. ring.
  - assert (X : forall f, fam_cycle p Dist IN n0 nerve S 0 0 r f -> cong p (f (k, j)) 0).
    { intros f [Hf _]. apply iff0. apply Hf. rewrite L0. auto. }
    rewrite (X v Hv). rewrite (X b) by (apply (fam_bounds_cycle _ _ _ _ _ _ _ _ _ HI S PO 0%nat m_pos Htop); exact Hb).
    rewrite (X (fam_cech IN n0 nerve S 0 0 z)) by (apply (fc_cycle _ _ _ _ _ _ _ _ _ HI S PO 0%nat m_pos Htop); exact Hz1). apply cong_eq. ring.
Qed.

Theorem corner_barcode bars : barcode p (page2_cycle p Dist IN n0 nerve S 0 0) (page2_bounds p Dist IN n0 nerve S 0 0) max_r bars -> rips_barcode p Dist max_r 0 bars.
Proof.
  apply (barcode_map p _ _ _ _ (glue IN n0 S 0) max_r bars Hp).
  - intros r _ M c b v Hb Hv. split; [|exact I]. apply (fam_cycle_sub argsort Dist max_r max_dim p IN n0 nerve HI S 0 0 r M c b); auto. intros k Hk. apply Hb. auto.
  - intros r _. apply s_bounds_sub.
  - intros r s v Hrs [H _]. split; [|exact I]. apply (fam_cycle_mono Dist p IN n0 nerve S 0 0 r); auto. lia.
  - intros r s v Hrs H. apply (s_bounds_mono 0 r); auto. lia.
  - intros M c b i. apply cong_eq. apply glue_lin.
  - intros u v H i. apply glue_cong. auto.
  - intros r v _ [H _]. apply glue_cycle; auto.
  - intros r v _ H. apply glue_page2_bounds; auto.
  - intros r v Hr [H _]. apply glue_zero_inv; auto.
  - intros r w Hr [Hw _]. exists (cut IN n0 S 0 w). split.
    + split; [|exact I]. split.
      * intros k j Hk. rewrite L0 in Hk. unfold cut. cbn [fst snd]. destruct (Nat.ltb_spec k n0); [lia|]. reflexivity.
      * intros k _. split; [|exact I]. apply cut_chain. exact Hw.
    + apply (subs_zero p Hp); [apply s_bounds_sub|]. intros s. rewrite (glue_cut _ _ _ _ _ _ _ _ _ HI S PO 0%nat r w s Hr ltac:(lia) Hf0 Hw : cong p (glue IN n0 S 0 (cut IN n0 S 0 w) s) (w s)). apply cong_eq. ring.
Qed.
End Zero.
