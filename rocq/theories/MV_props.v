(** * Concrete runs of the whole computation *)
From Coq Require Import QArith.
From Verif Require Import Base SortX Gauss_model Basis_model PH_model Simp_model LC_model SS_model IK_model Cover_model HP_model.
From Verif Require Import Spec_Simp Spec_Rips Spec_Bars Spec_MV Simp_props Rips_bars IK_props.
From Coq Require Import Permutation Znumtheory.
Local Open Scope Z_scope.

(** [create_MV_ss] on the squared distances of a cloud of integer points, in exact arithmetic. *)
Definition run (dim : nat) (pc : list (list Z)) (max_r max_dim max_div : Z) (overlap : Q) (p : Z) : res (ss * pages * list basis) :=
  create_MV_ss stable_argsort (fun x => x) (fun x => x) dim (map (map inject_Z) pc) (sq_dists dim pc) max_r max_dim max_div overlap p.

Definition bars_of (r : res (ss * pages * list basis)) : res (list (list (Z * Z))) :=
  match r with Ok (_, _, Hs) => Ok (map b_bars Hs) | Err e => Err e end.

Definition local_bars (dim : nat) (pc : list (list Z)) (max_r max_dim p : Z) : res (list (list (Z * Z))) :=
  match local_homology stable_argsort (fun x => x) (sq_dists dim pc) max_r max_dim p with
  | Ok (_, _, out) => Ok (map b_bars (ph_hom out)) | Err e => Err e end.

(** A checker for [mv_call]. *)
Lemma call_ok dim pc max_r max_dim max_div overlap : ((Nat.ltb 0 dim && Nat.ltb 0 (length pc) && forallb (fun a => Nat.eqb (length a) dim) pc &&
  (0 <? max_r) && (0 <? max_dim) && (0 <? max_div)) && (negb (Qle_bool overlap 0) && negb (Qle_bool (overlap * overlap) (inject_Z max_r))))%bool = true ->
  mv_call dim pc max_r max_dim max_div overlap 5.
Proof.
  rewrite !andb_true_iff, !Nat.ltb_lt, !Z.ltb_lt, forallb_forall, !negb_true_iff. intros ((((((H1 & H2) & H3) & H4) & H5) & H6) & H7 & H8). constructor; auto.
  - apply Forall_forall. intros a Ha. apply Nat.eqb_eq. auto.
  - split; apply Qnot_le_lt; intros H; apply Qle_bool_iff in H; congruence.
  - exact prime_5.
Qed.

Lemma sq_dists_nth dim pc u v : (u < length pc)%nat -> (v < length pc)%nat -> dist (sq_dists dim pc) u v = sq_dist dim (nth v pc []) (nth u pc []).
Proof.
  intros Hu Hv. unfold dist, sq_dists. rewrite (nth_indep _ [] (map (sq_dist dim []) pc)) by (rewrite map_length; auto).
  rewrite (map_nth (fun a => map (sq_dist dim a) pc)). rewrite (nth_indep _ 0 (sq_dist dim (nth v pc []) [])) by (rewrite map_length; auto).
  apply map_nth.
Qed.

Lemma sq_dists_length dim pc : length (sq_dists dim pc) = length pc.
Proof. apply map_length. Qed.

Lemma sq_dists_square dim pc : square (sq_dists dim pc).
Proof.
  intros i Hi. rewrite sq_dists_length in *. unfold sq_dists. rewrite (nth_indep _ [] (map (sq_dist dim []) pc)) by (rewrite map_length; auto).
  rewrite (map_nth (fun a => map (sq_dist dim a) pc)). apply map_length.
Qed.

Lemma Zsum_nonneg n f : (forall i, (i < n)%nat -> 0 <= f i) -> 0 <= Zsum n f.
Proof. induction n as [|n IH]; cbn; intros H; [lia|]. specialize (IH ltac:(auto)). specialize (H n ltac:(auto)). lia. Qed.

Lemma sq_dist_nonneg dim a b : 0 <= sq_dist dim a b.
Proof. apply Zsum_nonneg. intros i _. apply Z.square_nonneg. Qed.

(** The bars of the local pipeline are the barcode. *)
Lemma is_barcode dim pc max_r max_dim L d : 0 < max_r -> local_bars dim pc max_r max_dim 5 = Ok L -> (d < Z.to_nat (Z.max 1 max_dim))%nat ->
  rips_barcode 5 (sq_dists dim pc) max_r d (nth d L []).
Proof.
  intros Hr HL Hd. unfold local_bars in HL. destruct (local_homology _ _ _ _ _ _) as [[[Cs Ds] out]|] eqn:E; [|discriminate]. injection HL as <-.
  change (@nil (Z * Z)) with (b_bars empty_basis). rewrite map_nth.
  refine (C26_barcode_aux _ stable_argsort_sorts _ _ max_r max_dim 5 _ _ Hr prime_5 _ _ _ E d Hd); [apply sq_dists_square|].
  intros u v H. rewrite sq_dists_length in H. rewrite sq_dists_nth by lia. apply sq_dist_nonneg.
Qed.

(** Bars differing in number from those of the local pipeline are not the barcode. *)
Lemma not_barcode dim pc max_r max_dim L d bars : 0 < max_r -> local_bars dim pc max_r max_dim 5 = Ok L -> (d < Z.to_nat (Z.max 1 max_dim))%nat ->
  length bars <> length (nth d L []) -> ~ rips_barcode 5 (sq_dists dim pc) max_r d bars.
Proof.
  intros Hr HL Hd Hn HB. unfold local_bars in HL.
  destruct (local_homology _ _ _ _ _ _) as [[[Cs Ds] out]|] eqn:E; [|discriminate]. injection HL as <-. apply Hn.
  assert (P : Permutation bars (b_bars (nth d (ph_hom out) empty_basis))).
  { refine (C26_barcode_unique_aux _ stable_argsort_sorts _ _ max_r max_dim 5 _ _ Hr prime_5 _ _ _ E d bars Hd HB); [apply sq_dists_square|].
    intros u v H. rewrite sq_dists_length in H. rewrite sq_dists_nth by lia. apply sq_dist_nonneg. }
  rewrite (Permutation_length P). change (@nil (Z * Z)) with (b_bars empty_basis). rewrite map_nth. reflexivity.
Qed.

(** Number of bars in each degree. *)
Definition counts (r : res (list (list (Z * Z)))) : res (list nat) := match r with Ok L => Ok (map (@length _) L) | Err e => Err e end.

(** The run ends with more or fewer bars in degree [d] than the local pipeline. *)
Lemma wrong_count dim pc max_r max_dim max_div overlap N N' d : mv_call dim pc max_r max_dim max_div overlap 5 ->
  counts (bars_of (run dim pc max_r max_dim max_div overlap 5)) = Ok N -> counts (local_bars dim pc max_r max_dim 5) = Ok N' ->
  (d < length N)%nat -> (d < Z.to_nat (Z.max 1 max_dim))%nat -> nth d N 0%nat <> nth d N' 0%nat ->
  exists S P Hs, create_MV_ss stable_argsort (fun x => x) (fun x => x) dim (map (map inject_Z) pc) (sq_dists dim pc) max_r max_dim max_div overlap 5 = Ok (S, P, Hs) /\ (d < length Hs)%nat /\
  ~ rips_barcode 5 (sq_dists dim pc) max_r d (b_bars (nth d Hs empty_basis)).
Proof.
  unfold run. intros HC HN HN' Hd Hd' Hne. destruct (create_MV_ss _ _ _ _ _ _ _ _ _ _ _) as [[[S P] Hs]|]; [|discriminate]. destruct (local_bars _ _ _ _ _) as [L|] eqn:EL; [|discriminate].
  cbn in HN, HN'. injection HN as <-. injection HN' as <-. rewrite !map_length in Hd. exists S, P, Hs. split; [auto|]. split; [auto|].
  apply (not_barcode dim pc max_r max_dim L); auto; [apply HC|]. intros E. apply Hne.
  change 0%nat with (length (@nil (Z * Z))). rewrite !(map_nth (@length (Z * Z))). change (@nil (Z * Z)) with (b_bars empty_basis) at 1. rewrite map_nth. exact E.
Qed.

(** A square in the intersection of two halves, each with two apexes closing it; and a second square far away. *)
Definition two_cones : list (list Z) :=
  [[0;0;10;0;0]; [0;0;0;10;0]; [0;0;-10;0;0]; [0;0;0;-10;0]; [8;0;0;0;6]; [-8;0;0;0;6]; [0;8;0;0;-6]; [0;-8;0;0;-6];
   [60;60;0;0;0]; [60;60;14;0;0]; [60;60;14;14;0]; [60;60;0;14;0]; [-60;-60;0;0;0]].

(** An octahedron with its square in an intersection and its apexes in different halves, and two points fixing the box of the cover. *)
Definition octa : list (list Z) := [[10;0;0]; [-10;0;0]; [0;10;0]; [0;-10;0]; [0;0;10]; [0;0;-10]; [0;0;40]; [0;0;-40]].
Definition octa_high : list (list Z) := [[10;0;0]; [-10;0;0]; [0;10;0]; [0;-10;0]; [0;0;12]; [0;0;-10]; [0;0;61]; [0;0;-59]].

Lemma silent_aux : exists dim pc max_r max_dim max_div overlap p S P Hs d, mv_call dim pc max_r max_dim max_div overlap p /\
  create_MV_ss stable_argsort (fun x => x) (fun x => x) dim (map (map inject_Z) pc) (sq_dists dim pc) max_r max_dim max_div overlap p = Ok (S, P, Hs) /\
  (d < length Hs)%nat /\ ~ rips_barcode p (sq_dists dim pc) max_r d (b_bars (nth d Hs empty_basis)).
Proof.
  exists 5%nat, two_cones, 220, 3, 2, (15#1)%Q, 5. assert (HC : mv_call 5 two_cones 220 3 2 (15#1) 5) by (apply call_ok; reflexivity).
  destruct (wrong_count 5 two_cones 220 3 2 (15#1) [13; 1; 4]%nat [13; 1; 3; 0]%nat 2 HC) as (S & P & Hs & H); [vm_compute; reflexivity|vm_compute; reflexivity|cbn; lia|cbn; lia|cbn; lia|].
  exists S, P, Hs, 2%nat.  split; [exact HC|exact H].
Qed.

Lemma shifted_aux : exists dim pc max_r max_dim max_div overlap p S P Hs d, mv_call dim pc max_r max_dim max_div overlap p /\
  create_MV_ss stable_argsort (fun x => x) (fun x => x) dim (map (map inject_Z) pc) (sq_dists dim pc) max_r max_dim max_div overlap p = Ok (S, P, Hs) /\
  (d < length Hs)%nat /\ ~ rips_barcode p (sq_dists dim pc) max_r d (b_bars (nth d Hs empty_basis)).
Proof.
  exists 3%nat, (firstn 6 octa), 450, 3, 1, (22#1)%Q, 5. assert (HC : mv_call 3 (firstn 6 octa) 450 3 1 (22#1) 5) by (apply call_ok; reflexivity).
  destruct (wrong_count 3 (firstn 6 octa) 450 3 1 (22#1) [6; 1]%nat [6; 0; 1; 5]%nat 1 HC) as (S & P & Hs & H); [vm_compute; reflexivity|vm_compute; reflexivity|cbn; lia|cbn; lia|cbn; lia|].
  exists S, P, Hs, 1%nat.  split; [exact HC|exact H].
Qed.

Lemma value_error_aux : exists dim pc max_r max_dim max_div overlap p, mv_call dim pc max_r max_dim max_div overlap p /\
  create_MV_ss stable_argsort (fun x => x) (fun x => x) dim (map (map inject_Z) pc) (sq_dists dim pc) max_r max_dim max_div overlap p = Err ValueError.
Proof. exists 3%nat, octa, 210, 2, 2, (15#1)%Q, 5. split; [apply call_ok; reflexivity|vm_compute; reflexivity]. Qed.

Lemma runtime_error_aux : exists dim pc max_r max_dim max_div overlap p, mv_call dim pc max_r max_dim max_div overlap p /\
  create_MV_ss stable_argsort (fun x => x) (fun x => x) dim (map (map inject_Z) pc) (sq_dists dim pc) max_r max_dim max_div overlap p = Err RuntimeError.
Proof. exists 3%nat, octa_high, 450, 3, 2, (43#2)%Q, 5. split; [apply call_ok; reflexivity|vm_compute; reflexivity]. Qed.
