(** * Clouds divided in one direction, with acyclic bands: property C60 *)
From Coq Require Import QArith.
From Verif Require Import Base SortX Basis_model Simp_model SS_model Cover_model HP_model Spec_Simp Spec_Rips Spec_Bars Spec_SS Spec_E2 Spec_Cech Spec_Cover Spec_Call Spec_MV Spec_Two Spec_Band
  Simp_props MV_props MV_zero MV_two MV_total Props_E2 Props_Two.
From Coq Require Import Qabs Znumtheory.
Local Open Scope Z_scope.

(** ** C60: if no three elements of the cover meet and the intersections have no homology in positive degrees, a result is returned, and it is right in every degree. *)
Theorem C60_mv_ss : forall argsort rnd Dist max_r max_dim p IN n0 nerve, mv_input argsort Dist max_r max_dim p IN n0 nerve -> pure_nerve n0 nerve ->
  (forall x y, filtration_value Dist max_r x -> filtration_value Dist max_r y -> rnd x <= rnd y -> x <= y) ->
  (2 < length nerve)%nat -> (forall n, (2 <= n)%nat -> level n0 nerve n = []) -> two_cover IN n0 nerve -> (forall d, (d <= Z.to_nat max_dim)%nat -> fine Dist max_r IN n0 d) ->
  (forall d k r c, (1 <= d < Z.to_nat max_dim)%nat -> (k < length (level n0 nerve 1))%nat -> r < max_r -> s_cycle p (length Dist) (rips_in Dist IN 1 k r) d c -> s_bounds p (length Dist) (rips_in Dist IN 1 k r) d c) ->
  exists S P H0 O, mv_ss argsort rnd Dist max_r max_dim p IN n0 nerve = Ok (S, P, results H0 O) /\ length O = (Z.to_nat max_dim - 1)%nat /\
    forall d, (d < Z.to_nat max_dim)%nat -> rips_barcode p Dist max_r d (bars_in H0 O d).
Proof. exact mv_total_two. Qed.
Print Assumptions C60_mv_ss.

Theorem C60_create : forall argsort rnd dim pc Dist max_r max_dim max_div overlap p e, cloud_call argsort rnd dim pc Dist max_r max_dim max_div p ->
  (2 <= dim)%nat -> thick dim pc -> (0 <= overlap)%Q -> elongated max_div overlap dim pc e ->
  (forall u v f, (u < v < length pc)%nat -> dist Dist u v < max_r -> (f < dim)%nat -> (Qabs (nth f (nth u pc []) 0 - nth f (nth v pc []) 0) <= overlap)%Q) ->
  (forall x, wall max_div pc e x -> acyclic_band p Dist max_r max_dim pc overlap e x) ->
  exists S P H0 O, create_MV_ss argsort rnd (fun x => x) dim pc Dist max_r max_dim max_div overlap p = Ok (S, P, results H0 O) /\ length O = (Z.to_nat max_dim - 1)%nat /\
    forall d, (d < Z.to_nat max_dim)%nat -> rips_barcode p Dist max_r d (bars_in H0 O d).
Proof. exact create_total. Qed.
Print Assumptions C60_create.

Theorem C60_integer : forall dim pc max_r max_dim max_div overlap p e, mv_call dim pc max_r max_dim max_div overlap p -> (2 <= dim)%nat -> thick dim (map (map inject_Z) pc) ->
  elongated max_div overlap dim (map (map inject_Z) pc) e ->
  (forall x, wall max_div (map (map inject_Z) pc) e x -> acyclic_band p (sq_dists dim pc) max_r max_dim (map (map inject_Z) pc) overlap e x) ->
  exists S P H0 O, create_MV_ss stable_argsort (fun x => x) (fun x => x) dim (map (map inject_Z) pc) (sq_dists dim pc) max_r max_dim max_div overlap p = Ok (S, P, results H0 O) /\
    length O = (Z.to_nat max_dim - 1)%nat /\ forall d, (d < Z.to_nat max_dim)%nat -> rips_barcode p (sq_dists dim pc) max_r d (bars_in H0 O d).
Proof. exact integer_total. Qed.
Print Assumptions C60_integer.

(** ** Two rings that touch at the middle: the bar [5, 9) of the second column goes on, after its death, as a combination of bars of the first column. *)
Definition bridges : list (list Z) := [[0;2];[1;0];[3;0];[5;0];[6;1];[8;2];[10;1];[11;0];[13;0];[15;0];[16;2];
  [0;5];[1;7];[3;7];[5;7];[6;6];[8;5];[10;6];[11;7];[13;7];[15;7];[16;5];[0;4];[16;4]].
Example C60_bridges : mv_call 2 bridges 10 2 2 (4#1) 5 /\ thick 2 (map (map inject_Z) bridges) /\ elongated 2 (4#1) 2 (map (map inject_Z) bridges) 0 /\
  (forall x, wall 2 (map (map inject_Z) bridges) 0 x -> acyclic_band 5 (sq_dists 2 bridges) 10 2 (map (map inject_Z) bridges) (4#1) 0 x) /\
  wall 2 (map (map inject_Z) bridges) 0 (8#1) /\
  bars_of (run 2 bridges 10 2 2 (4#1) 5) = Ok [(0, 10) :: repeat (0, 5) 7 ++ repeat (0, 4) 10 ++ repeat (0, 2) 4 ++ repeat (0, 1) 2; [(5, 10); (9, 10)]] /\
  page_bars 1 1 0 (run 2 bridges 10 2 2 (4#1) 5) = Ok [(5, 9)] /\ page_bars 1 0 1 (run 2 bridges 10 2 2 (4#1) 5) = Ok [(9, 10); (9, 10)].
Proof.
  assert (HM : mv_call 2 bridges 10 2 2 (4#1) 5) by (apply call_ok; reflexivity). assert (HT : thick 2 (map (map inject_Z) bridges)) by (apply thick_ok; reflexivity).
  assert (HL : elongated 2 (4#1) 2 (map (map inject_Z) bridges) 0) by (apply long_ok; [lia|vm_compute; reflexivity]).
  split; [exact HM|]. split; [exact HT|]. split; [exact HL|]. split; [|split; [|split; [vm_compute; reflexivity|split; vm_compute; reflexivity]]].
  - apply quiet_ok; [|exact HT|discriminate|exact HL|vm_compute; reflexivity]. apply (mv_call_cloud _ _ _ _ _ (4#1)); [exact HM|].
    destruct (HT 0%nat ltac:(lia)) as (a & b & H). exists 0%nat, a, b. split; [lia|exact H].
  - exists 0%Q, (16#1)%Q, 1. assert (F : forall q, In q bridges -> 0 <= nth 0 q 0 <= 16) by (apply Forall_forall; repeat constructor; cbn; discriminate).
    split; [|split; [|split; [lia|reflexivity]]].
    + split; [exists (map inject_Z [0; 2]); split; [left; reflexivity|reflexivity]|].
      intros q Hq. apply in_map_iff in Hq. destruct Hq as (z & <- & Hz). apply F in Hz. rewrite nth_inject. change 0%Q with (inject_Z 0). rewrite <- Zle_Qle. lia.
    + split; [exists (map inject_Z [16; 2]); split; [do 10 right; left; reflexivity|reflexivity]|].
      intros q Hq. apply in_map_iff in Hq. destruct Hq as (z & <- & Hz). apply F in Hz. rewrite nth_inject. change (16#1)%Q with (inject_Z 16). rewrite <- Zle_Qle. lia.
Qed.

(** The hypotheses of [C60_mv_ss] and [C60_create] on its cover. *)
Example C60_bridges_cover : cloud_call stable_argsort (fun x => x) 2 (map (map inject_Z) bridges) (sq_dists 2 bridges) 10 2 2 5 /\
  exists pts IN n0 nerve, generate_cover (fun x => x) 2 (4#1) 2 (map (map inject_Z) bridges) = Ok (pts, IN, (n0, nerve)) /\
  mv_input stable_argsort (sq_dists 2 bridges) 10 2 5 IN n0 nerve /\ pure_nerve n0 nerve /\ (2 < length nerve)%nat /\ (forall n, (2 <= n)%nat -> level n0 nerve n = []) /\ two_cover IN n0 nerve /\
  (forall d, fine (sq_dists 2 bridges) 10 IN n0 d) /\
  forall d k r c, (1 <= d < 2)%nat -> (k < length (level n0 nerve 1))%nat -> r < 10 -> s_cycle 5 24 (rips_in (sq_dists 2 bridges) IN 1 k r) d c -> s_bounds 5 24 (rips_in (sq_dists 2 bridges) IN 1 k r) d c.
Proof.
  destruct C60_bridges as (HM & HT & HL & HQ & _ & E & _).
  assert (HC : cloud_call stable_argsort (fun x => x) 2 (map (map inject_Z) bridges) (sq_dists 2 bridges) 10 2 2 5).
  { apply (mv_call_cloud _ _ _ _ _ (4#1)); [exact HM|]. destruct (HT 0%nat ltac:(lia)) as (a & b & H). exists 0%nat, a, b. split; [lia|exact H]. }
  split; [exact HC|]. destruct (run_cover _ _ _ _ _ _ _ _ HC E) as (pts & IN & n0 & nerve & S & P & Hs & EG & HI & HN & _). exists pts, IN, n0, nerve.
  split; [exact EG|]. split; [exact HI|]. split; [exact HN|].
  pose proof (cover_conditions 2 2 (4#1) bridges 10 2 5 0 HM ltac:(lia) HT HL HQ pts IN n0 nerve EG) as (H1 & H2 & H3 & H4 & H5). auto.
Qed.

(** Two octahedra with a common vertex: two classes in degree 2.  Degree 1 leaves no entry in the list. *)
Definition octahedra : list (list Z) := [[0;0;0];[10;10;0];[10;-10;0];[10;0;10];[10;0;-10];[20;0;0];[-10;10;0];[-10;-10;0];[-10;0;10];[-10;0;-10];[-20;0;0]].
Example C60_octahedra : mv_call 3 octahedra 210 3 2 (149#10) 5 /\ thick 3 (map (map inject_Z) octahedra) /\ elongated 2 (149#10) 3 (map (map inject_Z) octahedra) 0 /\
  (forall x, wall 2 (map (map inject_Z) octahedra) 0 x -> acyclic_band 5 (sq_dists 3 octahedra) 210 3 (map (map inject_Z) octahedra) (149#10) 0 x) /\
  bars_of (run 3 octahedra 210 3 2 (149#10) 5) = Ok [(0, 210) :: repeat (0, 200) 10; [(200, 210); (200, 210)]].
Proof.
  assert (HM : mv_call 3 octahedra 210 3 2 (149#10) 5) by (apply call_ok; reflexivity). assert (HT : thick 3 (map (map inject_Z) octahedra)) by (apply thick_ok; reflexivity).
  assert (HL : elongated 2 (149#10) 3 (map (map inject_Z) octahedra) 0) by (apply long_ok; [lia|vm_compute; reflexivity]).
  split; [exact HM|]. split; [exact HT|]. split; [exact HL|]. split; [|vm_compute; reflexivity].
  apply quiet_ok; [|exact HT|discriminate|exact HL|vm_compute; reflexivity]. apply (mv_call_cloud _ _ _ _ _ (149#10)); [exact HM|].
  destruct (HT 0%nat ltac:(lia)) as (a & b & H). exists 0%nat, a, b. split; [lia|exact H].
Qed.

(** ** Preimages of image coefficients are taken with the sign changed, as they are subtracted *)
Example C63_preimage_sign : preimage_product (Some (Mat 2 [[3; 0]; [1; 1]])) (Some (Mat 2 [[2; 1]])) = Ok (Some (Mat 2 [[-7; -1]])).
Proof. reflexivity. Qed.
