(** * [create_MV_ss] on clouds divided in one direction only *)
From Coq Require Import QArith.
From Verif Require Import Base Basis_model PH_model Simp_model Spec_Simp Spec_Rips Spec_Bars Spec_MV SS_model Spec_SS SS_inv Spec_E2 Cover_model Spec_Cover Cover_grid Cover_nerve Cover_geom Spec_Call HP_model
  HP_second HP_zero Spec_Cech HP_e2 MV_cover Simp_props MV_props MV_zero Spec_Two HP_diag.
From Coq Require Import Znumtheory Qabs Lqa.
Local Open Scope Z_scope.

Section Long.
Variables (max_div : Z) (overlap : Q) (dim : nat) (pc : list point) (e : nat).
Hypothesis (Hdiv : 1 <= max_div) (Hrect : rectangular dim pc) (Hov : (0 <= overlap)%Q).
Hypothesis Hlong : elongated max_div overlap dim pc e.

Lemma long_spread : spread dim pc.
Proof.
  destruct Hlong as (He & a & b & Ha & Hb & H & _). exists e, a, b. split; [exact He|]. split; [exact Ha|]. split; [exact Hb|].
  assert (0 < inject_Z max_div)%Q by (change 0%Q with (inject_Z 0); rewrite <- Zlt_Qlt; lia). assert (0 <= overlap * inject_Z max_div)%Q by nra. lra.
Qed.

Section Data.
Variables (pts : list (list (list point))) (IN : list (list (list nat))) (n : nat) (Cs : list (list simplex)) (mins : list Q) (side : Q) (div : list Z).
Hypothesis D : cover_data max_div overlap dim pc mins side div pts IN n Cs.
Let G := cd_grid _ _ _ _ _ _ _ _ _ _ _ D.

(** The other directions are not divided. *)
Lemma long_div f : (f < dim)%nat -> f <> e -> nth f div 0 <= 1.
Proof.
  intros Hf Hne. destruct Hlong as (He & a & b & Ha & Hb & _ & H). pose proof (go_side _ _ _ _ _ _ G) as Hs.
  assert (Hmd : (0 < inject_Z max_div)%Q) by (change 0%Q with (inject_Z 0); rewrite <- Zlt_Qlt; lia).
  assert (LM : forall g, exists M, largest_coord g pc M).
  { intros g. destruct (amax_ok (map (coord g) pc)) as (M & _ & HinM & HM); [destruct pc; [destruct Ha|simpl; congruence]|].
    exists M. split.
    - apply in_map_iff in HinM. destruct HinM as (q & <- & Hq). exists q. split; [exact Hq|reflexivity].
    - intros q Hq. apply HM. apply (in_map (coord g)) in Hq. exact Hq. }
  destruct (LM e) as (Me & HMe). destruct (LM f) as (Mf & HMf).
  pose proof (go_within _ _ _ _ _ _ G e Me He HMe) as W. destruct (go_fits _ _ _ _ _ _ G f Mf Hf HMf) as [_ F].
  pose proof (proj2 (go_least _ _ _ _ _ _ G e He) a Ha) as L1. pose proof (proj2 HMe b Hb) as L2.
  destruct (go_least _ _ _ _ _ _ G f Hf) as [(u & Hu & Eu) _]. destruct HMf as [(v & Hv & Ev) _].
  specialize (H f u v Hf Hne Hu Hv). rewrite Eu, Ev in H.
  assert (X : (Mf - nth f mins 0 <= side)%Q).
  { apply Qnot_lt_le. intros Y. assert ((side * inject_Z max_div < (Mf - nth f mins 0) * inject_Z max_div)%Q) by (apply Qmult_lt_compat_r; auto). lra. }
  destruct (Z_le_gt_dec (nth f div 0) 1) as [|Hgt]; [auto|]. exfalso.
  assert (Y : (1 <= inject_Z (nth f div 0%Z - 1))%Q) by (change 1%Q with (inject_Z 1); rewrite <- Zle_Qle; lia). nra.
Qed.

(** Positions in the grid differ in direction [e] only. *)
Lemma long_same a b : in_grid div a -> in_grid div b -> nth e a 0 = nth e b 0 -> a = b.
Proof.
  intros Ha Hb E. pose proof (Forall2_length Ha) as La. pose proof (Forall2_length Hb) as Lb. apply (nth_ext _ _ 0 0); [lia|].
  intros f Hf. destruct (Nat.eq_dec f e) as [->|Hne]; [exact E|]. pose proof (go_div _ _ _ _ _ _ G) as Ld.
  pose proof (in_grid_nth_inv _ _ Ha f ltac:(lia)). pose proof (in_grid_nth_inv _ _ Hb f ltac:(lia)). pose proof (long_div f ltac:(lia) Hne). lia.
Qed.

Lemma touch_nth a b : touch a b -> forall d, Z.abs (nth d a 0 - nth d b 0) <= 1.
Proof. intros H. induction H; intros [|d]; cbn; auto; lia. Qed.

Lemma long_levels k : (2 <= k)%nat -> level n Cs k = [].
Proof.
  intros Hk. destruct (level n Cs k) as [|s l] eqn:E; [reflexivity|]. exfalso.
  assert (Hs : In s (level n Cs k)) by (rewrite E; left; reflexivity). apply (lev_clique max_div overlap dim pc pts IN n Cs mins side div D) in Hs.
  destruct (positions_of max_div overlap dim pc pts IN n Cs mins side div D s k Hs) as (P & LP & NP & GP & TP & _). destruct Hs as [Ls _].
  destruct P as [|x [|y [|z P]]]; cbn in LP; try lia.
  assert (Gx : in_grid div x) by (apply GP; cbn; auto). assert (Gy : in_grid div y) by (apply GP; cbn; auto). assert (Gz : in_grid div z) by (apply GP; cbn; auto).
  pose proof (touch_nth x y (TP x y ltac:(cbn; auto) ltac:(cbn; auto)) e). pose proof (touch_nth y z (TP y z ltac:(cbn; auto) ltac:(cbn; auto)) e). pose proof (touch_nth x z (TP x z ltac:(cbn; auto) ltac:(cbn; auto)) e).
  inversion NP as [|? ? N1 NP']; subst. inversion NP' as [|? ? N2 _]; subst. cbn [In] in N1, N2.
  destruct (Z.eq_dec (nth e x 0) (nth e y 0)) as [A|A]; [apply N1; left; symmetry; apply long_same; auto|].
  destruct (Z.eq_dec (nth e x 0) (nth e z 0)) as [B|B]; [apply N1; right; left; symmetry; apply long_same; auto|].
  destruct (Z.eq_dec (nth e y 0) (nth e z 0)) as [C|C]; [apply N2; left; symmetry; apply long_same; auto|]. lia.
Qed.
End Data.

Lemma long_cover pts IN n Cs : generate_cover (fun x => x) max_div overlap dim pc = Ok (pts, IN, (n, Cs)) ->
  (1 < length Cs)%nat /\ (forall k, (2 <= k)%nat -> level n Cs k = []) /\ two_cover IN n Cs.
Proof.
  intros E. destruct (cover_inv _ _ _ _ _ _ _ _ Hdiv Hrect long_spread E) as (mins & side & div & D).
  pose proof (long_levels pts IN n Cs mins side div D) as HL. split; [|split; [exact HL|]].
  - rewrite (cd_lenC _ _ _ _ _ _ _ _ _ _ _ D). destruct Hlong as [He _]. destruct dim as [|k]; [lia|]. cbn. pose proof (Nat.pow_nonzero 2 k). lia.
  - assert (C51 : forall d s j, length s = S d -> increasing s -> (forall v, In v s -> (v < n)%nat) -> (forall v, In v s -> In j (nth v (nth 0 IN []) [])) -> In s (level n Cs d)).
    { apply (C51_aux max_div overlap dim pc Hdiv Hrect) with (pts := pts); [|exact E]. destruct long_spread as (_ & _).
      destruct Hlong as (He & a & b & Ha & Hb & H & _). exists e, a, b. split; [exact He|]. split; [exact Ha|]. split; [exact Hb|].
      assert (0 < inject_Z max_div)%Q by (change 0%Q with (inject_Z 0); rewrite <- Zlt_Qlt; lia). assert (0 <= overlap * inject_Z max_div)%Q by nra. split; lra. }
    intros q a b Hab Ha Hb. assert (Inc : increasing [a; b]) by (repeat constructor; lia). split.
    + apply (C51 1%nat [a; b] q); [reflexivity|exact Inc| |]; intros v [<-|[<-|[]]]; auto; lia.
    + intros c Hc Hqc. destruct (in_dec Nat.eq_dec c [a; b]) as [[X|[X|[]]]|Hno]; [left; auto|right; auto|]. exfalso.
      destruct (insert_facet [a; b] c Inc Hno) as (s & k & A1 & A2 & _ & _ & A5).
      assert (X : In s (level n Cs 2)); [|rewrite HL in X by lia; destruct X].
      apply (C51 2%nat s q); [exact A2|exact A1| |]; intros v Hv; apply A5 in Hv; destruct Hv as [->|[<-|[<-|[]]]]; auto; lia.
Qed.
End Long.

(** ** [mv_ss] on a cover of which no three elements meet *)
Theorem mv_two : forall argsort rnd Dist max_r max_dim p IN n0 nerve S P Hs, mv_input argsort Dist max_r max_dim p IN n0 nerve -> pure_nerve n0 nerve ->
  (forall x y, filtration_value Dist max_r x -> filtration_value Dist max_r y -> rnd x <= rnd y -> x <= y) ->
  (1 < length nerve)%nat -> (forall n, (2 <= n)%nat -> level n0 nerve n = []) -> two_cover IN n0 nerve -> (forall d, (d <= Z.to_nat max_dim)%nat -> fine Dist max_r IN n0 d) ->
  mv_ss argsort rnd Dist max_r max_dim p IN n0 nerve = Ok (S, P, Hs) ->
  exists H0 O, Hs = results H0 O /\ length O = (Z.to_nat max_dim - 1)%nat /\ forall d, (d < Z.to_nat max_dim)%nat -> rips_barcode p Dist max_r d (bars_in H0 O d).
Proof.
  intros argsort rnd Dist max_r max_dim p IN n0 nerve S P Hs HI HN Hr Hlen Htop Htwo Hf E.
  pose proof (mv_max_dim _ _ _ _ _ _ _ _ HI) as Hm.
  destruct (mv_two_columns _ _ _ _ _ _ _ _ _ _ _ _ HI HN Hr Hlen Htop Htwo E) as (H0 & O & EH & LO & HO). exists H0, O. split; [exact EH|]. split; [exact LO|].
  intros [|d] Hd; cbn [bars_in].
  - destruct (mv_degree_zero argsort rnd Dist max_r max_dim p IN n0 nerve S P Hs HI HN Hr (Hf 0%nat ltac:(lia)) (Hf 1%nat ltac:(lia))) as (H0' & Hs' & E' & R); [|exact E|].
    + assert (K : forall a b q, (a < b)%nat -> (b < n0)%nat -> In q (ins_of IN 0 a) -> In q (ins_of IN 0 b) -> In [a; b] (level n0 nerve 1)) by (intros a b q Hab Hb Ha Hqb; apply (Htwo q a b); auto).
      intros a b q Ha Hb Hqa Hqb. destruct (lt_eq_lt_dec a b) as [[L|L]|L].
      * apply (linked_step _ _ _ _ _ a b); [constructor|exact Hqa|exact Hqb|left; apply (K a b q); auto].
      * rewrite L. constructor.
      * apply (linked_step _ _ _ _ _ a b); [constructor|exact Hqa|exact Hqb|right; apply (K b a q); auto].
    + rewrite EH in E'. injection E' as <- _. exact R.
  - apply HO; [exact Hd|apply Hf; lia|apply Hf; lia].
Qed.

(** ** [create_MV_ss] *)
Theorem create_two : forall argsort rnd dim pc Dist max_r max_dim max_div overlap p e S P Hs, cloud_call argsort rnd dim pc Dist max_r max_dim max_div p ->
  thick dim pc -> (0 <= overlap)%Q -> elongated max_div overlap dim pc e ->
  (forall u v f, (u < v < length pc)%nat -> dist Dist u v < max_r -> (f < dim)%nat -> (Qabs (nth f (nth u pc []) 0 - nth f (nth v pc []) 0) <= overlap)%Q) ->
  create_MV_ss argsort rnd (fun x => x) dim pc Dist max_r max_dim max_div overlap p = Ok (S, P, Hs) ->
  exists H0 O, Hs = results H0 O /\ length O = (Z.to_nat max_dim - 1)%nat /\ forall d, (d < Z.to_nat max_dim)%nat -> rips_barcode p Dist max_r d (bars_in H0 O d).
Proof.
  intros argsort rnd dim pc Dist max_r max_dim max_div overlap p e S P Hs HC Ht Ho Hl Hn E. unfold create_MV_ss in E.
  destruct (generate_cover _ _ _ _ _) as [[[pts IN] [n0 nerve]]|] eqn:EG; [|discriminate]. cbn [bind] in E.
  destruct (create_input _ _ _ _ _ _ _ _ _ _ HC _ _ _ _ EG) as [HI HN]. destruct HC. assert (Hdiv : 1 <= max_div) by lia.
  destruct (long_cover max_div overlap dim pc e Hdiv cc_rect Ho Hl pts IN n0 nerve EG) as (L1 & L2 & L3).
  apply (mv_two argsort rnd Dist max_r max_dim p IN n0 nerve S P Hs HI HN); auto.
  intros d _. apply (cover_fine max_div overlap dim pc pts IN n0 nerve); auto. destruct Hl as [X _]. lia.
Qed.

Theorem integer_two dim pc max_r max_dim max_div overlap p e S P Hs : mv_call dim pc max_r max_dim max_div overlap p -> thick dim (map (map inject_Z) pc) ->
  elongated max_div overlap dim (map (map inject_Z) pc) e ->
  create_MV_ss stable_argsort (fun x => x) (fun x => x) dim (map (map inject_Z) pc) (sq_dists dim pc) max_r max_dim max_div overlap p = Ok (S, P, Hs) ->
  exists H0 O, Hs = results H0 O /\ length O = (Z.to_nat max_dim - 1)%nat /\ forall d, (d < Z.to_nat max_dim)%nat -> rips_barcode p (sq_dists dim pc) max_r d (bars_in H0 O d).
Proof.
  intros HM Ht Hl E. pose proof HM as []. assert (Hsp : spread dim (map (map inject_Z) pc)) by (destruct (Ht 0%nat call_dim) as (a & b & Ha & Hb & H); exists 0%nat, a, b; auto).
  destruct call_overlap as [Ho1 Ho2]. refine (create_two _ _ _ _ _ _ _ _ overlap p e S P Hs (mv_call_cloud _ _ _ _ _ _ _ HM Hsp) Ht _ Hl _ E); [lra|].
  intros u v f Huv Hdist He. rewrite map_length in Huv. rewrite sq_dists_nth in Hdist by lia.
  assert (X : forall k, nth k (map (map inject_Z) pc) [] = map inject_Z (nth k pc [])) by (intros k; change (@nil Q) with (map inject_Z []); apply map_nth).
  rewrite !X. assert (Y : forall a, nth f (map inject_Z a) 0%Q = inject_Z (nth f a 0)) by (intros a; change 0%Q with (inject_Z 0); apply map_nth). rewrite !Y.
  setoid_replace (inject_Z (nth f (nth u pc []) 0%Z) - inject_Z (nth f (nth v pc []) 0%Z))%Q with (inject_Z (nth f (nth u pc []) 0 - nth f (nth v pc []) 0)%Z).
  2:{ unfold Zminus. rewrite inject_Z_plus, inject_Z_opp. reflexivity. }
  apply (sq_below _ max_r); auto. pose proof (sq_dist_coord dim (nth v pc []) (nth u pc []) f He). lia.
Qed.

(** ** Checkers for the conditions on clouds of integer points *)
Definition thickb (dim : nat) (pc : list (list Z)) : bool :=
  forallb (fun d => existsb (fun a => existsb (fun b => nth d a 0 <? nth d b 0) pc) pc) (seq 0 dim).
Definition longb (max_div : Z) (overlap : Q) (dim : nat) (pc : list (list Z)) (e : nat) : bool :=
  existsb (fun a => existsb (fun b => (negb (Qle_bool (inject_Z (nth e b 0 - nth e a 0)) (overlap * inject_Z max_div)) &&
    forallb (fun f => (Nat.eqb f e || forallb (fun u => forallb (fun v => (nth f v 0 - nth f u 0) * max_div <=? nth e b 0 - nth e a 0) pc) pc)%bool) (seq 0 dim))%bool) pc) pc.

Lemma nth_inject a f : nth f (map inject_Z a) 0%Q = inject_Z (nth f a 0).
Proof. change 0%Q with (inject_Z 0). apply map_nth. Qed.

Lemma inject_minus x y : (inject_Z x - inject_Z y == inject_Z (x - y))%Q.
Proof. unfold Zminus. rewrite inject_Z_plus, inject_Z_opp. reflexivity. Qed.

Lemma thick_ok dim pc : thickb dim pc = true -> thick dim (map (map inject_Z) pc).
Proof.
  unfold thickb. rewrite forallb_forall. intros H d Hd. specialize (H d ltac:(apply in_seq; lia)). apply existsb_exists in H. destruct H as (a & Ha & H).
  apply existsb_exists in H. destruct H as (b & Hb & H). apply Z.ltb_lt in H. exists (map inject_Z a), (map inject_Z b).
  split; [apply in_map; exact Ha|]. split; [apply in_map; exact Hb|]. rewrite !nth_inject. rewrite <- Zlt_Qlt. exact H.
Qed.

Lemma long_ok max_div overlap dim pc e : (e < dim)%nat -> longb max_div overlap dim pc e = true -> elongated max_div overlap dim (map (map inject_Z) pc) e.
Proof.
  intros He H. split; [exact He|]. apply existsb_exists in H. destruct H as (a & Ha & H). apply existsb_exists in H. destruct H as (b & Hb & H).
  apply andb_true_iff in H. destruct H as [H1 H2]. apply negb_true_iff in H1. rewrite forallb_forall in H2.
  exists (map inject_Z a), (map inject_Z b). split; [apply in_map; exact Ha|]. split; [apply in_map; exact Hb|]. rewrite !nth_inject. split.
  - rewrite inject_minus. apply Qnot_le_lt. intros X. apply Qle_bool_iff in X. congruence.
  - intros f u v Hf Hne Hu Hv. apply in_map_iff in Hu. destruct Hu as (u' & <- & Hu). apply in_map_iff in Hv. destruct Hv as (v' & <- & Hv). rewrite !nth_inject, !inject_minus, <- inject_Z_mult, <- Zle_Qle.
    specialize (H2 f ltac:(apply in_seq; lia)). apply orb_true_iff in H2. destruct H2 as [H2|H2]; [apply Nat.eqb_eq in H2; lia|].
    rewrite forallb_forall in H2. specialize (H2 u' Hu). rewrite forallb_forall in H2. specialize (H2 v' Hv). apply Z.leb_le. exact H2.
Qed.

(** ** Two annuli of different sizes joined along two bars *)
Definition hour : list (list Z) := [[0;2];[1;0];[3;0];[5;0];[6;1];[7;2];[9;2];[10;1];[11;0];[13;0];[15;0];[16;2];
  [0;5];[1;7];[3;7];[5;7];[6;6];[7;5];[9;5];[10;6];[11;7];[13;7];[15;7];[16;5];[0;4];[16;4]].

(** A polyhedron around the origin, with an apex on each side. *)
Definition lantern : list (list Z) := [[-14;0;0];[14;0;0];[-6;7;0];[-6;0;7];[-6;-7;0];[-6;0;-7];[0;7;0];[0;0;7];[0;-7;0];[0;0;-7];[6;7;0];[6;0;7];[6;-7;0];[6;0;-7]].

(** A square in the intersection of two halves, filled by cones; and a square in one half only. *)
Definition coned : list (list Z) := [[10;0;0;0];[0;10;0;0];[-10;0;0;0];[0;-10;0;0];[0;0;8;-6];[0;0;-8;-6];[0;0;0;11];[0;0;-54;0];[0;0;108;0];[14;0;108;0];[14;14;108;0];[0;14;108;0]].

Lemma no_return_aux : exists dim pc max_r max_dim max_div overlap p e, mv_call dim pc max_r max_dim max_div overlap p /\ thick dim (map (map inject_Z) pc) /\
  elongated max_div overlap dim (map (map inject_Z) pc) e /\
  create_MV_ss stable_argsort (fun x => x) (fun x => x) dim (map (map inject_Z) pc) (sq_dists dim pc) max_r max_dim max_div overlap p = Err RuntimeError.
Proof.
  exists 4%nat, coned, 240, 3, 3, (63#4)%Q, 5, 2%nat. split; [apply call_ok; reflexivity|]. split; [apply thick_ok; reflexivity|].
  split; [apply long_ok; [lia|vm_compute; reflexivity]|vm_compute; reflexivity].
Qed.
