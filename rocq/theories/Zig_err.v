(** * The representatives kept by [create_MV_ss], and clouds and covers for which they are wrong *)
From Coq Require Import QArith.
From Verif Require Import Base SortX Basis_model Simp_model Simp_props LC_model Spec_LC SS_model Cover_model HP_model Spec_Simp Spec_Rips Spec_SS Spec_E2 Spec_Cech Spec_Cover Spec_Call Spec_MV Spec_Zig
  MV_props MV_zero HP_zig Nerve_err.
From Coq Require Import Znumtheory Sorted.
Local Open Scope Z_scope.

Theorem create_stairs : forall argsort rnd dim pc Dist max_r max_dim max_div overlap p S P Hs, cloud_call argsort rnd dim pc Dist max_r max_dim max_div p ->
  create_MV_ss argsort rnd (fun x => x) dim pc Dist max_r max_dim max_div overlap p = Ok (S, P, Hs) ->
  exists pts IN n0 nerve, generate_cover (fun x => x) max_div overlap dim pc = Ok (pts, IN, (n0, nerve)) /\
  forall k n d reps, tget (h_reps P) k n d = Ok reps -> reps <> [] ->
    length reps = (Nat.min n k + 1)%nat /\ staircase p IN n0 nerve S (inhabited S) n d reps.
Proof.
  intros argsort rnd dim pc Dist max_r max_dim max_div overlap p S P Hs HC E. unfold create_MV_ss in E.
  destruct (generate_cover _ _ _ _ _) as [[[pts IN] [n0 nerve]]|] eqn:EG; [|discriminate]. cbn [bind] in E.
  exists pts, IN, n0, nerve. split; [reflexivity|]. destruct (create_input _ _ _ _ _ _ _ _ _ _ HC _ _ _ _ EG) as [HI HN].
  exact (mv_stairs _ _ _ _ _ _ _ _ _ _ _ _ HI HN E).
Qed.

(** ** A cloud in three regions: the first two meet in a circle, which both of them fill *)
Definition far_cloud : list (list Z) := [[-20;0;0];[-5;0;0];[0;5;0];[0;-5;0];[0;0;5];[0;0;-5];[5;0;0];[40;5;0];[40;-5;0];[40;0;5];[40;0;-5]].

(** The sum of the two differentials at one place. *)
Definition zig_sum (p : Z) IN n0 nerve (S : ss) (n d k : nat) (a b : chains) (g j : nat) : Z :=
  (cech_image n0 nerve IN S n d k (fun s => value a s g) j + local_bd IN S n d k (value b k g) j) mod p.

Definition far_check : bool :=
  match generate_cover (fun x => x) 3 (8#1) 3 (map (map inject_Z) far_cloud) with
  | Ok (_, IN, (n0, nerve)) =>
    match mv_ss stable_argsort (fun x => x) (sq_dists 3 far_cloud) 63 2 5 IN n0 nerve with
    | Ok (T, P, _) =>
      match tget (h_reps P) 1 1 1 with
      | Ok reps => Nat.eqb (length reps) 2 && Nat.eqb (length (level n0 nerve 0)) 3 && (zig_sum 5 IN n0 nerve T 0 1 0 (nth 0 reps []) (nth 1 reps []) 0 3 =? 4)
      | Err _ => false
      end
    | Err _ => false
    end
  | Err _ => false
  end.

Lemma far_call : cloud_call stable_argsort (fun x => x) 3 (map (map inject_Z) far_cloud) (sq_dists 3 far_cloud) 63 2 3 5.
Proof.
  apply (mv_call_cloud _ _ _ _ _ (8#1)); [apply call_ok; reflexivity|].
  exists 0%nat, (map inject_Z [-20;0;0]), (map inject_Z [5;0;0]). split; [lia|]. split; [apply in_map; unfold far_cloud; cbn [In]; tauto|]. split; [apply in_map; unfold far_cloud; cbn [In]; tauto|reflexivity].
Qed.

Theorem everywhere_wrong : exists dim pc Dist max_r max_dim max_div overlap p S P Hs pts IN n0 nerve k n d reps,
  cloud_call stable_argsort (fun x => x) dim pc Dist max_r max_dim max_div p /\
  generate_cover (fun x => x) max_div overlap dim pc = Ok (pts, IN, (n0, nerve)) /\
  create_MV_ss stable_argsort (fun x => x) (fun x => x) dim pc Dist max_r max_dim max_div overlap p = Ok (S, P, Hs) /\
  tget (h_reps P) k n d = Ok reps /\ reps <> [] /\ ~ staircase p IN n0 nerve S (fun _ _ _ => True) n d reps.
Proof.
  assert (X : far_check = true) by (vm_compute; reflexivity). unfold far_check in X.
  exists 3%nat, (map (map inject_Z) far_cloud), (sq_dists 3 far_cloud), 63, 2, 3, (8#1)%Q, 5. unfold create_MV_ss.
  destruct (generate_cover _ _ _ _ _) as [[[pts IN] [n0 nerve]]|] eqn:EG; [|discriminate X]. cbn [bind].
  destruct (mv_ss _ _ _ _ _ _ _ _ _) as [[[S P] Hs]|] eqn:EM; [|discriminate X]. destruct (tget (h_reps P) 1 1 1) as [reps|] eqn:ER; [|discriminate X].
  apply andb_prop in X. destruct X as [X X3]. apply andb_prop in X. destruct X as [X1 X2]. apply Nat.eqb_eq in X1, X2. apply Z.eqb_eq in X3.
  exists S, P, Hs, pts, IN, n0, nerve, 1%nat, 1%nat, 1%nat, reps. split; [exact far_call|]. do 3 (split; [assumption || reflexivity|]). split; [intros ->; discriminate X1|].
  intros ST. pose proof (st_cancel _ _ _ _ _ _ _ _ _ ST 0%nat 0%nat ltac:(lia) ltac:(cbn [Nat.sub]; lia) Logic.I 0%nat 3%nat) as Y. unfold zig_sum in X3.
  cbn [Nat.sub Nat.add] in Y. rewrite Y in X3. discriminate.
Qed.

(** ** The octahedron and its seventh point below distance 2: a class of the third page whose representatives are zero *)
Lemma octa_input2 : mv_input stable_argsort octa_Dist 2 3 5 octa_IN 4 octa_nerve.
Proof. destruct octa_input. constructor; auto; lia. Qed.

(** All the values of a family of chains are zero. *)
Definition zero_chains (ch : chains) : bool := forallb (fun e => forallb (forallb (Z.eqb 0)) (lrows (le_coord e))) ch.

Lemma zero_rows rows i j : forallb (forallb (Z.eqb 0)) rows = true -> nth j (nth i rows []) 0 = 0.
Proof.
  intros H. rewrite forallb_forall in H. destruct (Nat.lt_ge_cases i (length rows)) as [Hi|Hi]; [|rewrite (nth_overflow rows) by exact Hi; destruct j; reflexivity].
  specialize (H _ (nth_In _ [] Hi)). rewrite forallb_forall in H. destruct (Nat.lt_ge_cases j (length (nth i rows []))) as [Hj|Hj]; [|apply nth_overflow; exact Hj].
  specialize (H _ (nth_In _ 0 Hj)). apply Z.eqb_eq in H. auto.
Qed.

Lemma zero_chains_ok ch k g j : zero_chains ch = true -> value ch k g j = 0.
Proof.
  intros H. unfold value, at_entry. destruct (find_idx _ _) as [i|]; [|reflexivity].
  destruct (Nat.lt_ge_cases k (length ch)) as [Hk|Hk]; [|rewrite (nth_overflow ch) by exact Hk; destruct i, j; reflexivity].
  unfold zero_chains in H. rewrite forallb_forall in H. apply zero_rows. exact (H _ (nth_In _ _ Hk)).
Qed.

Definition octa_vanish : bool :=
  match mv_ss stable_argsort (fun x => x) octa_Dist 2 3 5 octa_IN 4 octa_nerve with
  | Ok (_, P, _) =>
    match tget (h_hom P) 1 2 0, tget (h_hom P) 2 2 0, tget (h_reps P) 1 2 0, tget (h_reps P) 2 2 0 with
    | Ok H1, Ok H2, Ok r1, Ok r2 => match b_bars H1, b_bars H2 with
      | [(1, 2)], [(1, 2)] => (value (nth 0 r1 []) 1 0 0 =? 1) && forallb zero_chains r2
      | _, _ => false
      end
    | _, _, _, _ => false
    end
  | Err _ => false
  end.

Theorem vanishing : exists Dist max_r max_dim p IN n0 nerve S P Hs H1 H2 reps1 reps2 n d,
  mv_input stable_argsort Dist max_r max_dim p IN n0 nerve /\ pure_nerve n0 nerve /\
  mv_ss stable_argsort (fun x => x) Dist max_r max_dim p IN n0 nerve = Ok (S, P, Hs) /\
  tget (h_hom P) 1 n d = Ok H1 /\ tget (h_hom P) 2 n d = Ok H2 /\ tget (h_reps P) 1 n d = Ok reps1 /\ tget (h_reps P) 2 n d = Ok reps2 /\
  b_bars H1 = [(1, 2)] /\ b_bars H2 = [(1, 2)] /\ (exists k j, value (nth 0 reps1 []) k 0 j = 1) /\ forall i k g j, value (nth i reps2 []) k g j = 0.
Proof.
  assert (X : octa_vanish = true) by (vm_compute; reflexivity). unfold octa_vanish in X.
  exists octa_Dist, 2, 3, 5, octa_IN, 4%nat, octa_nerve. destruct (mv_ss _ _ _ _ _ _ _ _ _) as [[[S P] Hs]|]; [|discriminate X].
  destruct (tget (h_hom P) 1 2 0) as [H1|] eqn:E1; [|discriminate X]. destruct (tget (h_hom P) 2 2 0) as [H2|] eqn:E2; [|discriminate X].
  destruct (tget (h_reps P) 1 2 0) as [r1|] eqn:E3; [|discriminate X]. destruct (tget (h_reps P) 2 2 0) as [r2|] eqn:E4; [|discriminate X].
  exists S, P, Hs, H1, H2, r1, r2, 2%nat, 0%nat. split; [exact octa_input2|]. split; [exact octa_pure|]. split; [reflexivity|]. do 4 (split; [assumption|]).
  assert (Y : b_bars H1 = [(1, 2)] /\ b_bars H2 = [(1, 2)] /\ ((value (nth 0 r1 []) 1 0 0 =? 1) && forallb zero_chains r2)%bool = true).
  { revert X. generalize ((value (nth 0 r1 []) 1 0 0 =? 1) && forallb zero_chains r2)%bool. intros b X.
    destruct (b_bars H1) as [|[[|[| |]|] [|[|[]|]|]] []]; try discriminate X; destruct (b_bars H2) as [|[[|[| |]|] [|[|[]|]|]] []]; try discriminate X; auto. }
  destruct Y as (Y1 & Y2 & Y3). apply andb_prop in Y3. destruct Y3 as [Y3 Y4]. apply Z.eqb_eq in Y3. do 2 (split; [assumption|]). split; [exists 1%nat, 0%nat; exact Y3|].
  intros i k g j. rewrite forallb_forall in Y4. destruct (Nat.lt_ge_cases i (length r2)) as [Hi|Hi].
  - apply zero_chains_ok. apply Y4. apply nth_In. exact Hi.
  - rewrite (nth_overflow r2) by exact Hi. apply zero_chains_ok. reflexivity.
Qed.

(** ** The octahedron beside a square: the class of the place (2, 0) goes down to the first column *)
Definition sq_opp (i j : nat) : bool := match i, j with 6, 7 | 7, 6 | 8, 9 | 9, 8 => true | _, _ => false end%nat.
Definition pair_Dist : list (list Z) :=
  map (fun i => map (fun j => if Nat.eqb i j then 0 else if octa_opp i j || sq_opp i j then 3 else if Bool.eqb (Nat.ltb i 6) (Nat.ltb j 6) then 1 else 2) (seq 0 10)) (seq 0 10).
Definition pair_U : list (list nat) := [[0;2;3;4;6;7;8;9]; [0;2;3;5]; [1;2;3;4]; [1;2;3;5]]%nat.
Definition pair_meet (s : list nat) : list nat := filter (fun q => forallb (fun v => existsb (Nat.eqb q) (nth v pair_U [])) s) (seq 0 10).
Definition pair_IN : list (list (list nat)) := pair_U :: map (map pair_meet) octa_nerve.

Lemma pair_meet_in s q : s <> [] -> (forall v, In v s -> (v < 4)%nat) -> In q (pair_meet s) <-> forall v, In v s -> In q (nth v pair_U []).
Proof.
  intros Hs Hv. unfold pair_meet. rewrite filter_In, forallb_forall, in_seq. split.
  - intros [_ H] v Hin. specialize (H v Hin). apply existsb_exists in H. destruct H as (x & Hx & E). apply Nat.eqb_eq in E. subst x. exact Hx.
  - intros H. split.
    + destruct s as [|v s]; [elim Hs; reflexivity|]. specialize (H v (or_introl eq_refl)). specialize (Hv v (or_introl eq_refl)).
      destruct v as [|[|[|[|v]]]]; [..|lia]; cbn in H; lia.
    + intros v Hin. apply existsb_exists. exists q. split; [exact (H v Hin)|apply Nat.eqb_refl].
Qed.

Lemma pair_IN_nth n k : (k < length (level 4 octa_nerve (S n)))%nat -> nth k (nth (S n) pair_IN []) [] = pair_meet (nth k (level 4 octa_nerve (S n)) []).
Proof.
  intros Hk. cbn [level] in *. unfold pair_IN. cbn [nth].
  assert (X : nth n (map (map pair_meet) octa_nerve) [] = map pair_meet (nth n octa_nerve [])) by (rewrite <- (map_nth (map pair_meet)); reflexivity).
  rewrite X. rewrite (nth_indep _ [] (pair_meet []) ltac:(rewrite map_length; exact Hk)). apply map_nth.
Qed.

Lemma pair_IN_in d k : In (nth k (nth d pair_IN []) []) (concat pair_IN) \/ nth k (nth d pair_IN []) [] = [].
Proof.
  destruct (Nat.lt_ge_cases d (length pair_IN)) as [Hd|Hd]; [|right; rewrite (nth_overflow _ _ Hd); destruct k; reflexivity].
  destruct (Nat.lt_ge_cases k (length (nth d pair_IN []))) as [Hk|Hk]; [|right; apply nth_overflow; exact Hk].
  left. apply in_concat. exists (nth d pair_IN []). split; apply nth_In; assumption.
Qed.

Lemma pair_covering : covering 10 4 octa_nerve pair_IN.
Proof.
  constructor.
  - exact octa_simplicial.
  - discriminate.
  - reflexivity.
  - intros [|[|[|[|[|d]]]]] H; reflexivity.
  - intros d k. destruct (pair_IN_in d k) as [H|H]; [|rewrite H; octa_incr]. revert H. generalize (nth k (nth d pair_IN []) []). intros l H. vm_compute in H.
    repeat (destruct H as [<-|H]; [octa_incr|]). contradiction.
  - intros d k q. destruct (pair_IN_in d k) as [H|H]; [|rewrite H; contradiction]. revert H. generalize (nth k (nth d pair_IN []) []). intros l H Hq. vm_compute in H.
    repeat (destruct H as [<-|H]; [cbn in Hq; lia|]). contradiction.
  - intros [|d] k q Hd Hk.
    + cbn [level] in *. rewrite map_length, seq_length in Hk. rewrite (nth_indep _ [] [0%nat] ltac:(rewrite map_length, seq_length; exact Hk)), (map_nth (fun v => [v])), seq_nth by exact Hk.
      split; [intros H v [<-|[]]; exact H|intros H; exact (H k (or_introl eq_refl))].
    + rewrite pair_IN_nth by exact Hk. destruct (proj1 octa_simplicial (S d) _ (nth_In _ [] Hk)) as (L & _ & V). apply pair_meet_in; [|exact V]. intros E. rewrite E in L. discriminate.
Qed.

Example pair_input : mv_input stable_argsort pair_Dist 2 3 5 pair_IN 4 octa_nerve.
Proof.
  constructor; [exact stable_argsort_sorts| | |lia|lia|exact octa_prime|exact pair_covering].
  - intros i H. do 10 (destruct i as [|i]; [reflexivity|]). cbn in H. lia.
  - intros u v [H1 H2]. change (length pair_Dist) with 10%nat in H2. do 10 (destruct v as [|v]; [do 10 (destruct u as [|u]; [vm_compute; discriminate|]); lia|]). lia.
Qed.

(** Three families of chains, none of them zero, and classes to meet at each step. *)
Definition pair_check : bool :=
  match mv_ss stable_argsort (fun x => x) pair_Dist 2 3 5 pair_IN 4 octa_nerve with
  | Ok (T, P, _) =>
    match tget (h_reps P) 2 2 0 with
    | Ok reps => Nat.eqb (length reps) 3 && negb (value (nth 0 reps []) 1 0 0 =? 0) && negb (value (nth 1 reps []) 0 0 0 =? 0) && negb (value (nth 2 reps []) 0 0 0 =? 0) &&
        negb (Nat.eqb (length (b_bars (hom_of T 1 0 0))) 0) && negb (Nat.eqb (length (b_bars (hom_of T 0 0 1))) 0)
    | Err _ => false
    end
  | Err _ => false
  end.

Theorem pair_stairs : exists S P Hs reps, mv_ss stable_argsort (fun x => x) pair_Dist 2 3 5 pair_IN 4 octa_nerve = Ok (S, P, Hs) /\
  tget (h_reps P) 2 2 0 = Ok reps /\ length reps = 3%nat /\ value (nth 0 reps []) 1 0 0 <> 0 /\ value (nth 1 reps []) 0 0 0 <> 0 /\ value (nth 2 reps []) 0 0 0 <> 0 /\
  inhabited S 1 0 0 /\ inhabited S 0 1 0.
Proof.
  assert (X : pair_check = true) by (vm_compute; reflexivity). unfold pair_check in X.
  destruct (mv_ss _ _ _ _ _ _ _ _ _) as [[[S P] Hs]|]; [|discriminate X]. destruct (tget (h_reps P) 2 2 0) as [reps|] eqn:ER; [|discriminate X].
  exists S, P, Hs, reps. split; [reflexivity|]. split; [exact ER|]. repeat (apply andb_prop in X; destruct X as [X ?Y]). apply Nat.eqb_eq in X. split; [exact X|].
  apply negb_true_iff in Y, Y0, Y1, Y2, Y3. apply Z.eqb_neq in Y1, Y2, Y3. apply Nat.eqb_neq in Y, Y0. do 3 (split; [assumption|]).
  split; unfold inhabited; intros E; rewrite E in *; [apply Y0|apply Y]; reflexivity.
Qed.
