(** * Clouds divided in one direction, with acyclic bands: a result is returned *)
From Coq Require Import QArith.
From Verif Require Import Base Lin Basis_model PH_model Simp_model Spec_Simp Spec_Rips Spec_Bars Spec_MV SS_model Spec_SS SS_inv SS_page SS_e2 Spec_E2 Cover_model Spec_Cover Cover_grid Cover_nerve Cover_geom Spec_Call HP_model
  HP_ext Bars Bars_complex Rips_bars Spec_Cech MV_cover Simp_props MV_props MV_zero Spec_Two MV_two HP_all Spec_Band.
From Coq Require Import Znumtheory Qabs Lqa.
Local Open Scope Z_scope.

(** Chains of two complexes with the same simplices. *)
Lemma s_cycle_same p n K K' d c : (forall e s, K e s <-> K' e s) -> s_cycle p n K d c -> s_cycle p n K' d c.
Proof. intros H [A B]. split; [|exact B]. intros s Hs. apply H, A, Hs. Qed.
Lemma s_bounds_same p n K K' d c : (forall e s, K e s <-> K' e s) -> s_bounds p n K d c -> s_bounds p n K' d c.
Proof. intros H (A & w & B & C). split; [intros s Hs; apply H, A, Hs|]. exists w. split; [intros s Hs; apply H, B, Hs|exact C]. Qed.

Section Band.
Variables (max_div : Z) (overlap : Q) (dim : nat) (pc : list point) (e : nat).
Hypothesis (Hdiv : 1 <= max_div) (Hrect : rectangular dim pc) (Hov : (0 <= overlap)%Q).
Hypothesis Hlong : elongated max_div overlap dim pc e.
Variables (pts : list (list (list point))) (IN : list (list (list nat))) (n : nat) (Cs : list (list simplex)) (mins : list Q) (side : Q) (div : list Z).
Hypothesis D : cover_data max_div overlap dim pc mins side div pts IN n Cs.
Let G := cd_grid _ _ _ _ _ _ _ _ _ _ _ D.
Lemma He : (e < dim)%nat.
Proof. apply Hlong. Qed.
Lemma Hside : (0 < side)%Q.
Proof. exact (go_side _ _ _ _ _ _ G). Qed.
Let Hmd : (0 < inject_Z max_div)%Q. Proof. change 0%Q with (inject_Z 0). rewrite <- Zlt_Qlt. lia. Qed.

Lemma largest_ex g : exists M, largest_coord g pc M.
Proof.
  destruct Hlong as (_ & a & b & Ha & _). assert (Hne : map (coord g) pc <> []) by (intros X; apply map_eq_nil in X; rewrite X in Ha; destruct Ha).
  destruct (amax_ok (map (coord g) pc) Hne) as (M & _ & HinM & HM).
  exists M. split.
  - apply in_map_iff in HinM. destruct HinM as (q & <- & Hq). exists q. split; [exact Hq|reflexivity].
  - intros q Hq. apply HM. apply (in_map (coord g)) in Hq. exact Hq.
Qed.

(** The hypercubes divide the extent in direction [e]. *)
Lemma band_side M : largest_coord e pc M -> (M - nth e mins 0 == side * inject_Z max_div)%Q.
Proof.
  intros HM. pose proof (go_within _ _ _ _ _ _ G e M He HM) as W. destruct (go_longest _ _ _ _ _ _ G) as (g & Mg & Hg & HMg & E).
  destruct Hlong as (_ & a & b & Ha & Hb & H0 & H).
  pose proof (proj2 (go_least _ _ _ _ _ _ G e He) a Ha) as L1. pose proof (proj2 HM b Hb) as L2.
  destruct (Nat.eq_dec g e) as [->|Hne].
  - destruct HM as [(u & Hu & Eu) B1], HMg as [(v & Hv & Ev) B2]. pose proof (B1 v Hv). pose proof (B2 u Hu). lra.
  - destruct (go_least _ _ _ _ _ _ G g Hg) as [(u & Hu & Eu) _]. destruct HMg as [(v & Hv & Ev) _]. specialize (H g u v Hg Hne Hu Hv). rewrite Eu, Ev, E in H.
    assert (Y : (1 <= inject_Z max_div)%Q) by (change 1%Q with (inject_Z 1); rewrite <- Zle_Qle; lia).
    assert (Z0 : (0 <= side * inject_Z max_div)%Q) by (pose proof Hside; nra). assert (side * inject_Z max_div <= side * inject_Z max_div * inject_Z max_div)%Q by (pose proof Hside; nra). lra.
Qed.

Lemma band_div : nth e div 0 = max_div.
Proof.
  destruct (largest_ex e) as (M & HM). destruct (go_fits _ _ _ _ _ _ G e M He HM) as [F1 F2]. rewrite (band_side M HM) in F1, F2.
  apply Qmult_lt_l in F2; [|exact Hside]. apply Qmult_le_l in F1; [|exact Hside]. rewrite <- Zlt_Qlt in F2. rewrite <- Zle_Qle in F1. lia.
Qed.

Lemma band_overlap : (overlap < side)%Q.
Proof.
  destruct (largest_ex e) as (M & HM). pose proof (band_side M HM) as E. destruct Hlong as (_ & a & b & Ha & Hb & H0 & _).
  pose proof (proj2 (go_least _ _ _ _ _ _ G e He) a Ha) as L1. pose proof (proj2 HM b Hb) as L2.
  apply (Qmult_lt_r _ _ (inject_Z max_div)); [exact Hmd|]. lra.
Qed.

(** All points are in the hypercube, as far as other directions are concerned. *)
Lemma band_other a f q : in_grid div a -> (f < dim)%nat -> f <> e -> (q < length pc)%nat ->
  let lo := (nth f mins 0 + side * inject_Z (nth f a 0%Z))%Q in (lo - overlap / 2 <= nth f (nth q pc []) 0 <= lo + side + overlap / 2)%Q.
Proof.
  intros Ha Hf Hne Hq. pose proof (long_div max_div overlap dim pc e Hdiv Hrect Hlong pts IN n Cs mins side div D f Hf Hne) as L.
  pose proof (in_grid_nth_inv _ _ Ha f ltac:(rewrite (go_div _ _ _ _ _ _ G); exact Hf)) as I. assert (Ea : nth f a 0 = 0) by lia. rewrite Ea. cbn zeta.
  destruct (largest_ex f) as (M & HM). destruct (go_fits _ _ _ _ _ _ G f M Hf HM) as [F1 _]. assert (Hin : In (nth q pc []) pc) by (apply nth_In; exact Hq).
  pose proof (proj2 (go_least _ _ _ _ _ _ G f Hf) _ Hin). pose proof (proj2 HM _ Hin).
  assert (Y : (inject_Z (nth f div 0%Z) <= 1)%Q) by (change 1%Q with (inject_Z 1); rewrite <- Zle_Qle; exact L). change (inject_Z 0) with 0%Q.
  assert (side * inject_Z (nth f div 0%Z) <= side * 1)%Q by (apply Qmult_le_l; [exact Hside|exact Y]). assert (Oh : (0 <= overlap / 2)%Q) by (apply Qle_shift_div_l; lra). split; lra.
Qed.

(** The points in two successive hypercubes. *)
Lemma band_two a b q : in_grid div a -> in_grid div b -> nth e b 0 = nth e a 0 + 1 -> (q < length pc)%nat ->
  (in_cube mins side overlap a (nth q pc []) /\ in_cube mins side overlap b (nth q pc [])) <-> in_band overlap e (nth e mins 0 + side * inject_Z (nth e b 0%Z))%Q (nth q pc []).
Proof.
  intros Ha Hb E Hq. assert (Hin : In (nth q pc []) pc) by (apply nth_In; exact Hq).
  pose proof (Forall2_length Ha) as La. pose proof (Forall2_length Hb) as Lb. pose proof (go_div _ _ _ _ _ _ G) as Ld. pose proof band_overlap as Ho. pose proof He as He0.
  assert (Ei : (inject_Z (nth e b 0%Z) == inject_Z (nth e a 0%Z) + 1)%Q) by (rewrite E, inject_Z_plus; reflexivity). unfold in_band. split.
  - intros [[_ A] [_ B]]. specialize (A e ltac:(lia)). specialize (B e ltac:(lia)). cbn zeta in A, B. rewrite Ei in *. split; lra.
  - intros [A B]. rewrite Ei in A, B. split; (split; [rewrite (Hrect _ Hin); lia|]); intros f Hf; destruct (Nat.eq_dec f e) as [->|Hne]; try (apply band_other; auto; lia); cbn zeta; rewrite ?Ei; split; lra.
Qed.

Lemma wall_iff j : 0 < j < max_div -> wall max_div pc e (nth e mins 0 + side * inject_Z j)%Q.
Proof.
  intros Hj. destruct (largest_ex e) as (M & HM). exists (nth e mins 0%Q), M, j. split; [apply (go_least _ _ _ _ _ _ G e He)|]. split; [exact HM|]. split; [exact Hj|].
  rewrite (band_side M HM). field. intros X. rewrite X in Hmd. apply Qlt_irrefl in Hmd. exact Hmd.
Qed.

Lemma wall_at x : wall max_div pc e x -> exists j, 0 < j < max_div /\ (x == nth e mins 0 + side * inject_Z j)%Q.
Proof.
  intros (lo & hi & j & H1 & H2 & Hj & E). exists j. split; [exact Hj|]. rewrite E.
  assert (X : (lo == nth e mins 0)%Q).
  { pose proof (go_least _ _ _ _ _ _ G e He) as [(u & Hu & Eu) B1]. destruct H1 as [(v & Hv & Ev) B2]. pose proof (B1 v Hv). pose proof (B2 u Hu). lra. }
  rewrite X, (band_side hi H2). field. intros Y. rewrite Y in Hmd. apply Qlt_irrefl in Hmd. exact Hmd.
Qed.

Lemma edge_points k s : (k < length (level n Cs 1))%nat -> nth k (level n Cs 1) [] = s -> forall q, In q (ins_of IN 1 k) <-> (forall v, In v s -> In q (nth v (nth 0 IN []) [])).
Proof.
  intros Hk <-. assert (H1 : (1 <= length Cs)%nat). { rewrite (cd_lenC _ _ _ _ _ _ _ _ _ _ _ D). pose proof (Nat.pow_nonzero 2 dim). lia. }
  destruct (cd_inter _ _ _ _ _ _ _ _ _ _ _ D 1%nat ltac:(lia)) as (_ & _ & L). apply (L k Hk).
Qed.

(** The intersections over the edges of the nerve are the bands at the walls. *)
Lemma edge_band k : (k < length (level n Cs 1))%nat -> exists x, wall max_div pc e x /\ forall q, In q (ins_of IN 1 k) <-> (q < length pc)%nat /\ in_band overlap e x (nth q pc []).
Proof.
  intros Hk. set (s := nth k (level n Cs 1) []). assert (Hs : In s (level n Cs 1)) by (apply nth_In; exact Hk).
  apply (lev_clique max_div overlap dim pc pts IN n Cs mins side div D) in Hs. destruct Hs as (Ls & Is & Vs & As).
  pose proof (edge_points k s Hk eq_refl) as HP. destruct s as [|u [|v [|? ?]]]; cbn in Ls; try lia.
  assert (Huv : (u < v)%nat) by (inversion Is as [|? ? _ F]; subst; inversion F; auto).
  destruct (As u v ltac:(cbn; auto) ltac:(cbn; auto) Huv) as (a & b & Ha & Hb & Tab & Ea & Eb).
  pose proof (cd_in _ _ _ _ _ _ _ _ _ _ _ D a Ha) as (_ & Ca & _). pose proof (cd_in _ _ _ _ _ _ _ _ _ _ _ D b Hb) as (_ & Cb & _). rewrite Ea, Nat2Z.id in Ca. rewrite Eb, Nat2Z.id in Cb.
  pose proof (touch_nth a b Tab e) as Te. assert (Ne : nth e a 0 <> nth e b 0).
  { intros X. assert (a = b) by (apply (long_same max_div overlap dim pc e Hdiv Hrect Hlong pts IN n Cs mins side div D); auto). subst b. lia. }
  assert (HQ : forall q, In q (ins_of IN 1 k) <-> (q < length pc)%nat /\ in_cube mins side overlap a (nth q pc []) /\ in_cube mins side overlap b (nth q pc [])).
  { intros q. rewrite HP. split.
    - intros H. pose proof (proj1 (Ca q) (H u ltac:(cbn; auto))). pose proof (proj1 (Cb q) (H v ltac:(cbn; auto))). tauto.
    - intros (H1 & H2 & H3) w [<-|[<-|[]]]; [apply Ca|apply Cb]; auto. }
  pose proof (go_div _ _ _ _ _ _ G) as Ld. pose proof He as He0. pose proof (in_grid_nth_inv _ _ Ha e ltac:(lia)) as Ia. pose proof (in_grid_nth_inv _ _ Hb e ltac:(lia)) as Ib. rewrite band_div in Ia, Ib.
  destruct (Z.eq_dec (nth e b 0) (nth e a 0 + 1)) as [E|E].
  - exists (nth e mins 0 + side * inject_Z (nth e b 0%Z))%Q. split; [apply wall_iff; lia|]. intros q. rewrite HQ. split; intros [H1 H2]; (split; [exact H1|]); apply (band_two a b q Ha Hb E H1); exact H2.
  - exists (nth e mins 0 + side * inject_Z (nth e a 0%Z))%Q. split; [apply wall_iff; lia|]. intros q. rewrite HQ.
    assert (E' : nth e a 0 = nth e b 0 + 1) by lia. split; intros [H1 H2]; (split; [exact H1|]); pose proof (band_two b a q Hb Ha E' H1); tauto.
Qed.

Lemma band_eq x y pt : (x == y)%Q -> in_band overlap e x pt <-> in_band overlap e y pt.
Proof. intros H. unfold in_band. rewrite H. reflexivity. Qed.

(** Each band is an intersection. *)
Lemma band_edge x : thick dim pc -> wall max_div pc e x -> exists k, (k < length (level n Cs 1))%nat /\ forall q, In q (ins_of IN 1 k) <-> (q < length pc)%nat /\ in_band overlap e x (nth q pc []).
Proof.
  intros Ht Hx. destruct (wall_at x Hx) as (j & Hj & Ex). pose proof (go_div _ _ _ _ _ _ G) as Ld.
  set (at_ := fun i => map (fun f => if Nat.eqb f e then i else 0) (seq 0 dim)).
  assert (Ae : forall i f, (f < dim)%nat -> nth f (at_ i) 0 = if Nat.eqb f e then i else 0).
  { intros i f Hf. unfold at_. set (g := fun f => if Nat.eqb f e then i else 0). rewrite (nth_indep _ 0 (g 0%nat)) by (rewrite map_length, seq_length; exact Hf). rewrite (map_nth g), seq_nth by exact Hf. reflexivity. }
  assert (Hg : forall i, 0 <= i < max_div -> in_grid div (at_ i)).
  { intros i Hi. apply (in_grid_nth div (at_ i)); [unfold at_; rewrite map_length, seq_length; lia|]. intros f Hf. rewrite Ae by lia. destruct (Nat.eqb_spec f e) as [->|Hne]; [rewrite band_div; exact Hi|].
    destruct (Ht f ltac:(lia)) as (u & v & Hu & Hv & Huv). destruct (largest_ex f) as (M & HM). destruct (go_fits _ _ _ _ _ _ G f M ltac:(lia) HM) as [F1 _].
    pose proof (proj2 (go_least _ _ _ _ _ _ G f ltac:(lia)) _ Hu). pose proof (proj2 HM _ Hv). split; [lia|]. apply Z.lt_nge. intros X.
    assert (Y : (inject_Z (nth f div 0%Z) <= 0)%Q) by (change 0%Q with (inject_Z 0); rewrite <- Zle_Qle; exact X). assert (side * inject_Z (nth f div 0%Z) <= side * 0)%Q by (apply Qmult_le_l; [exact Hside|exact Y]). lra. }
  set (a := at_ (j - 1)). set (b := at_ j). assert (Ha : in_grid div a) by (apply Hg; lia). assert (Hb : in_grid div b) by (apply Hg; lia).
  pose proof (cd_in _ _ _ _ _ _ _ _ _ _ _ D a Ha) as (_ & Ca & _). pose proof (cd_in _ _ _ _ _ _ _ _ _ _ _ D b Hb) as (_ & Cb & _).
  set (u := Z.to_nat (grid_index div a)) in *. set (v := Z.to_nat (grid_index div b)) in *.
  assert (Ee : forall i, nth e (at_ i) 0 = i) by (intros i; rewrite Ae by exact He; rewrite Nat.eqb_refl; reflexivity).
  assert (Nuv : u <> v).
  { intros X. pose proof (grid_index_bound _ _ Ha). pose proof (grid_index_bound _ _ Hb). assert (Y : a = b) by (apply (grid_index_inj div); auto; unfold u, v in X; lia).
    pose proof (Ee (j - 1)) as Y1. pose proof (Ee j) as Y2. fold a in Y1. fold b in Y2. rewrite Y in Y1. lia. }
  assert (Tab : touch a b).
  { unfold a, b, at_. clear. unfold touch. induction (seq 0 dim) as [|f l IH]; cbn [map]; constructor; auto. destruct (Nat.eqb f e); lia. }
  assert (Au : Z.of_nat u = grid_index div a) by (pose proof (grid_index_bound _ _ Ha); unfold u; lia). assert (Av : Z.of_nat v = grid_index div b) by (pose proof (grid_index_bound _ _ Hb); unfold v; lia).
  assert (Hun : (u < n)%nat) by (rewrite (cd_n _ _ _ _ _ _ _ _ _ _ _ D); pose proof (grid_index_bound _ _ Ha); lia).
  assert (Hvn : (v < n)%nat) by (rewrite (cd_n _ _ _ _ _ _ _ _ _ _ _ D); pose proof (grid_index_bound _ _ Hb); lia).
  assert (Ae1 : adjacent div u v) by (exists a, b; auto). assert (Ae2 : adjacent div v u) by (exists b, a; split; [exact Hb|]; split; [exact Ha|]; split; [apply touch_sym; exact Tab|]; auto).
  assert (HB : forall q, (q < length pc)%nat -> (in_cube mins side overlap a (nth q pc []) /\ in_cube mins side overlap b (nth q pc [])) <-> in_band overlap e x (nth q pc [])).
  { intros q Hq. rewrite (band_two a b q Ha Hb ltac:(unfold a, b; rewrite !Ee; lia) Hq). unfold b. rewrite Ee. apply band_eq. symmetry. exact Ex. }
  assert (Hedge : exists s, In s (level n Cs 1) /\ forall w, In w s <-> w = u \/ w = v).
  { destruct (Nat.lt_ge_cases u v) as [Huv|Huv]; [exists [u; v]|exists [v; u]]; (split; [|cbn; intuition]); apply (lev_clique max_div overlap dim pc pts IN n Cs mins side div D);
      (split; [reflexivity|]); (split; [repeat constructor; lia|]); (split; [intros w [<-|[<-|[]]]; auto|]); intros w z [<-|[<-|[]]] [<-|[<-|[]]] Hwz; auto; lia. }
  destruct Hedge as (s & Hs & Hw). apply In_nth with (d := []) in Hs. destruct Hs as (k & Hk & Es). exists k. split; [exact Hk|]. intros q. rewrite (edge_points k s Hk Es). split.
  - intros H. pose proof (proj1 (Ca q) (H u (proj2 (Hw u) (or_introl eq_refl)))) as [H1 H2]. pose proof (proj1 (Cb q) (H v (proj2 (Hw v) (or_intror eq_refl)))) as [_ H3]. split; [exact H1|]. apply HB; auto.
  - intros [H1 H2] w Hwi. apply HB in H2; [|exact H1]. apply Hw in Hwi. destruct Hwi as [->| ->]; [apply Ca|apply Cb]; tauto.
Qed.

(** The complexes of a band and of an intersection. *)
Lemma band_rips Dist k x r d s : length Dist = length pc -> (forall q, In q (ins_of IN 1 k) <-> (q < length pc)%nat /\ in_band overlap e x (nth q pc [])) ->
  rips_in Dist IN 1 k r d s <-> rips_band Dist pc overlap e x r d s.
Proof.
  intros HL HQ. unfold rips_in, rips_band. split; intros [H1 H2]; (split; [exact H1|]).
  - intros q Hq. apply H2 in Hq. apply HQ in Hq. apply Hq.
  - intros q Hq. apply HQ. split; [|apply H2; exact Hq]. rewrite <- HL. apply H1. exact Hq.
Qed.
End Band.

(** ** [mv_ss] *)
Theorem mv_total_two : forall argsort rnd Dist max_r max_dim p IN n0 nerve, mv_input argsort Dist max_r max_dim p IN n0 nerve -> pure_nerve n0 nerve ->
  (forall x y, filtration_value Dist max_r x -> filtration_value Dist max_r y -> rnd x <= rnd y -> x <= y) ->
  (2 < length nerve)%nat -> (forall n, (2 <= n)%nat -> level n0 nerve n = []) -> two_cover IN n0 nerve -> (forall d, (d <= Z.to_nat max_dim)%nat -> fine Dist max_r IN n0 d) ->
  (forall d k r c, (1 <= d < Z.to_nat max_dim)%nat -> (k < length (level n0 nerve 1))%nat -> r < max_r -> s_cycle p (length Dist) (rips_in Dist IN 1 k r) d c -> s_bounds p (length Dist) (rips_in Dist IN 1 k r) d c) ->
  exists S P H0 O, mv_ss argsort rnd Dist max_r max_dim p IN n0 nerve = Ok (S, P, results H0 O) /\ length O = (Z.to_nat max_dim - 1)%nat /\
    forall d, (d < Z.to_nat max_dim)%nat -> rips_barcode p Dist max_r d (bars_in H0 O d).
Proof.
  intros argsort rnd Dist max_r max_dim p IN n0 nerve HI HN Hr Hlen Htop Htwo Hf Hac.
  destruct (mv_total _ _ _ _ _ _ _ _ _ HI HN Hr Hlen Htop Hac) as (S & P & Hs & E).
  destruct (mv_two _ _ _ _ _ _ _ _ _ _ _ _ HI HN Hr ltac:(lia) Htop Htwo Hf E) as (H0 & O & -> & R). exists S, P, H0, O. split; [exact E|exact R].
Qed.

(** ** [create_MV_ss] *)
Lemma create_conditions argsort rnd dim pc Dist max_r max_dim max_div overlap p e : cloud_call argsort rnd dim pc Dist max_r max_dim max_div p ->
  (2 <= dim)%nat -> thick dim pc -> (0 <= overlap)%Q -> elongated max_div overlap dim pc e ->
  (forall u v f, (u < v < length pc)%nat -> dist Dist u v < max_r -> (f < dim)%nat -> (Qabs (nth f (nth u pc []) 0 - nth f (nth v pc []) 0) <= overlap)%Q) ->
  (forall x, wall max_div pc e x -> acyclic_band p Dist max_r max_dim pc overlap e x) ->
  forall IN n0 nerve, (exists pts, generate_cover (fun x => x) max_div overlap dim pc = Ok (pts, IN, (n0, nerve))) ->
  (2 < length nerve)%nat /\ (forall n, (2 <= n)%nat -> level n0 nerve n = []) /\ two_cover IN n0 nerve /\ (forall d, fine Dist max_r IN n0 d) /\
  (forall d k r c, (1 <= d < Z.to_nat max_dim)%nat -> (k < length (level n0 nerve 1))%nat -> r < max_r -> s_cycle p (length Dist) (rips_in Dist IN 1 k r) d c -> s_bounds p (length Dist) (rips_in Dist IN 1 k r) d c).
Proof.
  intros HC H2 Ht Ho Hl Hn Hac IN n0 nerve (pts & EG). assert (Hdiv : 1 <= max_div) by (destruct HC; lia).
  pose proof (cc_rect _ _ _ _ _ _ _ _ _ HC) as Hrect. pose proof (long_spread max_div overlap dim pc e Hdiv Ho Hl) as Hsp.
  destruct (long_cover max_div overlap dim pc e Hdiv Hrect Ho Hl pts IN n0 nerve EG) as (L1 & L2 & L3).
  destruct (cover_inv _ _ _ _ _ _ _ _ Hdiv Hrect Hsp EG) as (mins & side & div & D). split; [|split; [exact L2|split; [exact L3|split]]].
  - rewrite (cd_lenC _ _ _ _ _ _ _ _ _ _ _ D). apply Nat.lt_le_trans with (2 ^ 2)%nat; [cbn; lia|]. apply Nat.pow_le_mono_r; lia.
  - intros d. destruct HC. apply (cover_fine max_div overlap dim pc pts IN n0 nerve); auto. lia.
  - intros d k r c Hd Hk Hr Hc. destruct (edge_band max_div overlap dim pc e Hdiv Hrect Ho Hl pts IN n0 nerve mins side div D k Hk) as (x & Hx & HQ).
    pose proof (fun f s => band_rips overlap pc e IN Dist k x r f s (cc_length _ _ _ _ _ _ _ _ _ HC) HQ) as HB.
    apply (s_bounds_same _ _ (rips_band Dist pc overlap e x r)); [intros; symmetry; apply HB|]. apply (Hac x Hx d r c Hd Hr). apply (s_cycle_same _ _ (rips_in Dist IN 1 k r)); auto.
Qed.

Theorem create_total : forall argsort rnd dim pc Dist max_r max_dim max_div overlap p e, cloud_call argsort rnd dim pc Dist max_r max_dim max_div p ->
  (2 <= dim)%nat -> thick dim pc -> (0 <= overlap)%Q -> elongated max_div overlap dim pc e ->
  (forall u v f, (u < v < length pc)%nat -> dist Dist u v < max_r -> (f < dim)%nat -> (Qabs (nth f (nth u pc []) 0 - nth f (nth v pc []) 0) <= overlap)%Q) ->
  (forall x, wall max_div pc e x -> acyclic_band p Dist max_r max_dim pc overlap e x) ->
  exists S P H0 O, create_MV_ss argsort rnd (fun x => x) dim pc Dist max_r max_dim max_div overlap p = Ok (S, P, results H0 O) /\ length O = (Z.to_nat max_dim - 1)%nat /\
    forall d, (d < Z.to_nat max_dim)%nat -> rips_barcode p Dist max_r d (bars_in H0 O d).
Proof.
  intros argsort rnd dim pc Dist max_r max_dim max_div overlap p e HC H2 Ht Ho Hl Hn Hac. assert (Hdiv : 1 <= max_div) by (destruct HC; lia).
  pose proof (cc_rect _ _ _ _ _ _ _ _ _ HC) as Hrect. pose proof (long_spread max_div overlap dim pc e Hdiv Ho Hl) as Hsp.
  destruct (C35_total_aux max_div overlap dim pc Hdiv Hrect Hsp) as (pts & IN & n0 & nerve & EG).
  destruct (create_input _ _ _ _ _ _ _ _ _ _ HC _ _ _ _ EG) as [HI HN].
  destruct (create_conditions _ _ _ _ _ _ _ _ _ _ _ HC H2 Ht Ho Hl Hn Hac IN n0 nerve (ex_intro _ pts EG)) as (L1 & L2 & L3 & L4 & L5).
  unfold create_MV_ss. rewrite EG. cbn [bind]. apply mv_total_two; auto. apply (cc_rnd _ _ _ _ _ _ _ _ _ HC).
Qed.

Theorem integer_total dim pc max_r max_dim max_div overlap p e : mv_call dim pc max_r max_dim max_div overlap p -> (2 <= dim)%nat -> thick dim (map (map inject_Z) pc) ->
  elongated max_div overlap dim (map (map inject_Z) pc) e ->
  (forall x, wall max_div (map (map inject_Z) pc) e x -> acyclic_band p (sq_dists dim pc) max_r max_dim (map (map inject_Z) pc) overlap e x) ->
  exists S P H0 O, create_MV_ss stable_argsort (fun x => x) (fun x => x) dim (map (map inject_Z) pc) (sq_dists dim pc) max_r max_dim max_div overlap p = Ok (S, P, results H0 O) /\
    length O = (Z.to_nat max_dim - 1)%nat /\ forall d, (d < Z.to_nat max_dim)%nat -> rips_barcode p (sq_dists dim pc) max_r d (bars_in H0 O d).
Proof.
  intros HM H2 Ht Hl Hac. pose proof HM as []. assert (Hsp : spread dim (map (map inject_Z) pc)) by (destruct (Ht 0%nat call_dim) as (a & b & Ha & Hb & H); exists 0%nat, a, b; auto).
  destruct call_overlap as [Ho1 Ho2]. refine (create_total _ _ _ _ _ _ _ _ overlap p e (mv_call_cloud _ _ _ _ _ _ _ HM Hsp) H2 Ht _ Hl _ Hac); [lra|].
  intros u v f Huv Hdist He. rewrite map_length in Huv. rewrite sq_dists_nth in Hdist by lia.
  assert (X : forall k, nth k (map (map inject_Z) pc) [] = map inject_Z (nth k pc [])) by (intros k; change (@nil Q) with (map inject_Z []); apply map_nth).
  rewrite !X, !nth_inject, inject_minus. apply (sq_below _ max_r); auto. pose proof (sq_dist_coord dim (nth v pc []) (nth u pc []) f He). lia.
Qed.

(** The conditions of [mv_total_two] on the cover. *)
Lemma cover_conditions dim max_div overlap pc max_r max_dim p e : mv_call dim pc max_r max_dim max_div overlap p -> (2 <= dim)%nat -> thick dim (map (map inject_Z) pc) ->
  elongated max_div overlap dim (map (map inject_Z) pc) e ->
  (forall x, wall max_div (map (map inject_Z) pc) e x -> acyclic_band p (sq_dists dim pc) max_r max_dim (map (map inject_Z) pc) overlap e x) ->
  forall pts IN n0 nerve, generate_cover (fun x => x) max_div overlap dim (map (map inject_Z) pc) = Ok (pts, IN, (n0, nerve)) ->
  (2 < length nerve)%nat /\ (forall n, (2 <= n)%nat -> level n0 nerve n = []) /\ two_cover IN n0 nerve /\ (forall d, fine (sq_dists dim pc) max_r IN n0 d) /\
  (forall d k r c, (1 <= d < Z.to_nat max_dim)%nat -> (k < length (level n0 nerve 1))%nat -> r < max_r ->
    s_cycle p (length (sq_dists dim pc)) (rips_in (sq_dists dim pc) IN 1 k r) d c -> s_bounds p (length (sq_dists dim pc)) (rips_in (sq_dists dim pc) IN 1 k r) d c).
Proof.
  intros HM H2 Ht Hl Hac pts IN n0 nerve EG. pose proof HM as []. assert (Hsp : spread dim (map (map inject_Z) pc)) by (destruct (Ht 0%nat call_dim) as (a & b & Ha & Hb & H); exists 0%nat, a, b; auto).
  destruct call_overlap as [Ho1 Ho2]. pose proof (mv_call_cloud _ _ _ _ _ _ _ HM Hsp) as HC. apply (create_conditions _ _ _ _ _ _ _ _ _ _ _ HC H2 Ht (Qlt_le_weak _ _ Ho1) Hl); [|exact Hac|exact (ex_intro _ pts EG)].
  intros u v f Huv Hdist He. rewrite map_length in Huv. rewrite sq_dists_nth in Hdist by lia.
  assert (X : forall k, nth k (map (map inject_Z) pc) [] = map inject_Z (nth k pc [])) by (intros k; change (@nil Q) with (map inject_Z []); apply map_nth).
  rewrite !X, !nth_inject, inject_minus. apply (sq_below _ max_r); auto. pose proof (sq_dist_coord dim (nth v pc []) (nth u pc []) f He). lia.
Qed.

(** ** A check of the condition on the bands: no bars in positive degrees over the edges of the nerve *)
Definition quietb (m : nat) (r : res (ss * pages * list basis)) : bool :=
  match r with
  | Ok (T, _, _) => forallb (fun l => forallb (fun d => match b_bars (nth d (ph_hom (l_out l)) empty_basis) with [] => true | _ => false end) (seq 1 (m - 1))) (c_loc (nth 1 (s_cols T) no_column))
  | Err _ => false
  end.

Lemma quiet_ok dim pc max_r max_dim max_div overlap p e : cloud_call stable_argsort (fun x => x) dim (map (map inject_Z) pc) (sq_dists dim pc) max_r max_dim max_div p ->
  thick dim (map (map inject_Z) pc) -> (0 <= overlap)%Q -> elongated max_div overlap dim (map (map inject_Z) pc) e ->
  quietb (Z.to_nat max_dim) (run dim pc max_r max_dim max_div overlap p) = true ->
  forall x, wall max_div (map (map inject_Z) pc) e x -> acyclic_band p (sq_dists dim pc) max_r max_dim (map (map inject_Z) pc) overlap e x.
Proof.
  intros HC Ht Ho Hl Hq x Hx d r c Hd Hr Hc. set (Q := map (map inject_Z) pc) in *. assert (Hdiv : 1 <= max_div) by (destruct HC; lia).
  pose proof (cc_rect _ _ _ _ _ _ _ _ _ HC) as Hrect. pose proof (long_spread max_div overlap dim Q e Hdiv Ho Hl) as Hsp. unfold run, create_MV_ss in Hq. fold Q in Hq.
  destruct (generate_cover _ _ _ _ _) as [[[pts IN] [n0 nerve]]|] eqn:EG; [|discriminate]. cbn [bind] in Hq.
  destruct (create_input _ _ _ _ _ _ _ _ _ _ HC _ _ _ _ EG) as [HI HN].
  destruct (long_cover max_div overlap dim Q e Hdiv Hrect Ho Hl pts IN n0 nerve EG) as (L1 & _).
  destruct (cover_inv _ _ _ _ _ _ _ _ Hdiv Hrect Hsp EG) as (mins & side & div & D).
  destruct (mv_ss _ _ _ _ _ _ _ _ _) as [[[S P] Hs]|] eqn:EM; [|discriminate]. cbn [quietb] in Hq.
  unfold mv_ss in EM. destruct (zero_page _ _ _ _ _ _ _ _ _) as [S'|] eqn:EZ; [|discriminate]. cbn [bind] in EM. pose proof (zero_page_ok _ _ _ _ _ _ _ _ _ HI S' EZ) as PO.
  assert (ES : S' = S).
  { repeat (match type of EM with context [bind ?x _] => destruct x; cbn [bind] in EM; [|discriminate] end). injection EM as -> _ _. reflexivity. }
  subst S'. destruct (band_edge max_div overlap dim Q e Hdiv Hrect Ho Hl pts IN n0 nerve mins side div D x Ht Hx) as (k & Hk & HQ).
  pose proof (fun f s => band_rips overlap Q e IN (sq_dists dim pc) k x r f s (cc_length _ _ _ _ _ _ _ _ _ HC) HQ) as HB.
  apply (s_bounds_same _ _ (rips_in (sq_dists dim pc) IN 1 k r)); [exact HB|]. apply (s_cycle_same _ _ _ (rips_in (sq_dists dim pc) IN 1 k r)) in Hc; [|intros; symmetry; apply HB].
  assert (EB : b_bars (hom_of S 1 k d) = []).
  { unfold hom_of, loc_of. destruct (Nat.lt_ge_cases k (length (c_loc (nth 1 (s_cols S) no_column)))) as [Hlt|Hge].
    - rewrite forallb_forall in Hq. specialize (Hq _ (nth_In _ no_local Hlt)). rewrite forallb_forall in Hq. specialize (Hq d ltac:(apply in_seq; lia)). destruct (b_bars _); [reflexivity|discriminate].
    - rewrite (nth_overflow _ _ Hge). cbn. destruct d; reflexivity. }
  assert (PP : forall s, cong p (on_simplices (simplices IN S 1 k d) (pull IN S 1 k d c) s) (c s)).
  { intros s. apply (push_pull _ _ _ _ _ _ _ _ _ HI S PO 1 k L1 Hk d r c s Hr); [lia|apply Hc]. }
  pose proof (cc_prime _ _ _ _ _ _ _ _ _ HC) as Hpr. assert (p2 : 1 < p) by (destruct Hpr; lia).
  assert (LC : local_cycle p (sq_dists dim pc) IN S 1 d k r (pull IN S 1 k d c)).
  { apply (cycle_back _ _ _ _ _ _ _ _ _ HI S PO 1 k L1 Hk d r); [lia|apply pull_chain; apply Hc|].
    refine (subs_cong p Hpr _ _ _ (s_cycle_sub p _ p2 _ _) _ Hc). intros s. symmetry. apply PP. }
  pose proof (no_class _ _ _ _ _ _ _ _ _ HI S PO 1 d k r _ L1 Hk ltac:(lia) Hr EB LC) as LB.
  apply (push_bounds _ _ _ _ _ _ _ _ _ HI S PO 1 k L1 Hk d r _ ltac:(lia)) in LB.
  refine (subs_cong p Hpr _ _ _ (s_bounds_sub p _ p2 _ _) _ LB). exact PP.
Qed.
