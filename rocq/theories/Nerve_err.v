(** * A cover with acyclic intersections for which [mv_ss] raises an error *)
From Coq Require Import QArith.
From Verif Require Import Base SortX Basis_model Simp_model Simp_props SS_model Cover_model HP_model Spec_Simp Spec_Rips Spec_SS Spec_Cech Spec_E2 Spec_MV PH_model Rips_bars Spec_Nerve Nerve_mv.
From Coq Require Import Znumtheory Sorted.
Local Open Scope Z_scope.

(** The vertices of an octahedron, numbered so that opposite vertices are 0 and 1, 2 and 3, 4 and 5, and a seventh point.
    Opposite vertices are at distance 3, the seventh point is at distance 2 from the others, other distances are 1. *)
Definition octa_opp (i j : nat) : bool := match i, j with 0, 1 | 1, 0 | 2, 3 | 3, 2 | 4, 5 | 5, 4 => true | _, _ => false end%nat.
Definition octa_Dist : list (list Z) :=
  map (fun i => map (fun j => if Nat.eqb i j then 0 else if octa_opp i j then 3 else if Nat.eqb i 6 || Nat.eqb j 6 then 2 else 1) (seq 0 7)) (seq 0 7).

(** Four elements, with a vertex of the first pair and a vertex of the third pair each.  All of them meet. *)
Definition octa_U : list (list nat) := [[0;2;3;4;6]; [0;2;3;5;6]; [1;2;3;4;6]; [1;2;3;5;6]]%nat.
Definition octa_nerve : list (list (list nat)) :=
  [[[0;1]; [0;2]; [0;3]; [1;2]; [1;3]; [2;3]]; [[0;1;2]; [0;1;3]; [0;2;3]; [1;2;3]]; [[0;1;2;3]]; []]%nat.
Definition octa_meet (s : list nat) : list nat := filter (fun q => forallb (fun v => existsb (Nat.eqb q) (nth v octa_U [])) s) (seq 0 7).
Definition octa_IN : list (list (list nat)) := octa_U :: map (map octa_meet) octa_nerve.

Ltac octa_incr := unfold increasing; repeat (first [apply SSorted_nil | apply SSorted_cons | apply Forall_nil | apply Forall_cons]); try lia.

Lemma octa_prime : prime 5.
Proof. apply prime_alt. split; [lia|]. intros q H [x Hx]. assert (q = 2 \/ q = 3 \/ q = 4) as [->|[->| ->]] by lia; lia. Qed.

Lemma octa_simplicial : simplicial 4 octa_nerve.
Proof.
  split; [|split].
  - intros [|[|[|[|[|[|d]]]]]] s H; cbn in H; repeat (destruct H as [<-|H]); try contradiction; (split; [reflexivity|]; split; [octa_incr|]; intros v Hv; cbn in Hv; lia).
  - intros [|[|[|[|[|[|d]]]]]]; cbn; repeat constructor; simpl; intuition discriminate.
  - intros [|[|[|[|[|d]]]]] s k H Hk; cbn in H; repeat (destruct H as [<-|H]); try contradiction;
      do 5 (destruct k as [|k]; [first [cbn; tauto | exfalso; lia]|]); exfalso; lia.
Qed.

Lemma octa_meet_in s q : s <> [] -> (forall v, In v s -> (v < 4)%nat) -> In q (octa_meet s) <-> forall v, In v s -> In q (nth v octa_U []).
Proof.
  intros Hs Hv. unfold octa_meet. rewrite filter_In, forallb_forall, in_seq. split.
  - intros [_ H] v Hin. specialize (H v Hin). apply existsb_exists in H. destruct H as (x & Hx & E). apply Nat.eqb_eq in E. subst x. exact Hx.
  - intros H. split.
    + destruct s as [|v s]; [elim Hs; reflexivity|]. specialize (H v (or_introl eq_refl)). specialize (Hv v (or_introl eq_refl)).
      destruct v as [|[|[|[|v]]]]; [..|lia]; cbn in H; lia.
    + intros v Hin. apply existsb_exists. exists q. split; [exact (H v Hin)|apply Nat.eqb_refl].
Qed.

Lemma octa_IN_nth n k : (k < length (level 4 octa_nerve (S n)))%nat -> nth k (nth (S n) octa_IN []) [] = octa_meet (nth k (level 4 octa_nerve (S n)) []).
Proof.
  intros Hk. cbn [level] in *. unfold octa_IN. cbn [nth].
  assert (X : nth n (map (map octa_meet) octa_nerve) [] = map octa_meet (nth n octa_nerve [])) by (rewrite <- (map_nth (map octa_meet)); reflexivity).
  rewrite X. rewrite (nth_indep _ [] (octa_meet []) ltac:(rewrite map_length; exact Hk)). apply map_nth.
Qed.

Lemma octa_IN_in d k : In (nth k (nth d octa_IN []) []) (concat octa_IN) \/ nth k (nth d octa_IN []) [] = [].
Proof.
  destruct (Nat.lt_ge_cases d (length octa_IN)) as [Hd|Hd]; [|right; rewrite (nth_overflow _ _ Hd); destruct k; reflexivity].
  destruct (Nat.lt_ge_cases k (length (nth d octa_IN []))) as [Hk|Hk]; [|right; apply nth_overflow; exact Hk].
  left. apply in_concat. exists (nth d octa_IN []). split; apply nth_In; assumption.
Qed.

Lemma octa_covering : covering 7 4 octa_nerve octa_IN.
Proof.
  constructor.
  - exact octa_simplicial.
  - discriminate.
  - reflexivity.
  - intros [|[|[|[|[|d]]]]] H; reflexivity.
  - intros d k. destruct (octa_IN_in d k) as [H|H]; [|rewrite H; octa_incr]. revert H. generalize (nth k (nth d octa_IN []) []). intros l H. vm_compute in H.
    repeat (destruct H as [<-|H]; [octa_incr|]). contradiction.
  - intros d k q. destruct (octa_IN_in d k) as [H|H]; [|rewrite H; contradiction]. revert H. generalize (nth k (nth d octa_IN []) []). intros l H Hq. vm_compute in H.
    repeat (destruct H as [<-|H]; [cbn in Hq; lia|]). contradiction.
  - intros [|d] k q Hd Hk.
    + cbn [level] in *. rewrite map_length, seq_length in Hk. rewrite (nth_indep _ [] [0%nat] ltac:(rewrite map_length, seq_length; exact Hk)), (map_nth (fun v => [v])), seq_nth by exact Hk.
      split; [intros H v [<-|[]]; exact H|intros H; exact (H k (or_introl eq_refl))].
    + rewrite octa_IN_nth by exact Hk. destruct (proj1 octa_simplicial (S d) _ (nth_In _ [] Hk)) as (L & _ & V). apply octa_meet_in; [|exact V]. intros E. rewrite E in L. discriminate.
Qed.

Example octa_input : mv_input stable_argsort octa_Dist 3 3 5 octa_IN 4 octa_nerve.
Proof.
  constructor; [exact stable_argsort_sorts| | |lia|lia|exact octa_prime|exact octa_covering].
  - intros i H. do 7 (destruct i as [|i]; [reflexivity|]). cbn in H. lia.
  - intros u v [H1 H2]. change (length octa_Dist) with 7%nat in H2. do 7 (destruct v as [|v]; [do 7 (destruct u as [|u]; [vm_compute; discriminate|]); lia|]). lia.
Qed.

Example octa_pure : pure_nerve 4 octa_nerve.
Proof.
  split; [|reflexivity]. intros [|[|[|[|n]]]] H; [right|right|right|left; reflexivity|cbn in H; lia]; intros t Ht; cbn in Ht; repeat (destruct Ht as [<-|Ht]); try contradiction.
  - exists [0;1]%nat, 1%nat. split; [cbn; tauto|split; [lia|reflexivity]].
  - exists [0;1]%nat, 0%nat. split; [cbn; tauto|split; [lia|reflexivity]].
  - exists [0;2]%nat, 0%nat. split; [cbn; tauto|split; [lia|reflexivity]].
  - exists [0;3]%nat, 0%nat. split; [cbn; tauto|split; [lia|reflexivity]].
  - exists [0;1;2]%nat, 2%nat. split; [cbn; tauto|split; [lia|reflexivity]].
  - exists [0;1;2]%nat, 1%nat. split; [cbn; tauto|split; [lia|reflexivity]].
  - exists [0;1;3]%nat, 1%nat. split; [cbn; tauto|split; [lia|reflexivity]].
  - exists [0;1;2]%nat, 0%nat. split; [cbn; tauto|split; [lia|reflexivity]].
  - exists [0;1;3]%nat, 0%nat. split; [cbn; tauto|split; [lia|reflexivity]].
  - exists [0;2;3]%nat, 0%nat. split; [cbn; tauto|split; [lia|reflexivity]].
  - exists [0;1;2;3]%nat, 3%nat. split; [cbn; tauto|split; [lia|reflexivity]].
  - exists [0;1;2;3]%nat, 2%nat. split; [cbn; tauto|split; [lia|reflexivity]].
  - exists [0;1;2;3]%nat, 1%nat. split; [cbn; tauto|split; [lia|reflexivity]].
  - exists [0;1;2;3]%nat, 0%nat. split; [cbn; tauto|split; [lia|reflexivity]].
Qed.

Lemma octa_low t : increasing t -> (forall v, In v t -> (v < 4)%nat) -> In t (filter (fun s => Nat.ltb 0 (length s)) ([] :: concat (map (level 4 octa_nerve) (seq 0 4)))) \/ t = [].
Proof.
  intros Hi Hv. destruct t as [|a t]; [right; reflexivity|left]. pose proof (Hv a (or_introl eq_refl)) as Ha.
  inversion Hi as [|x y S1 F1]; subst. destruct t as [|b t].
  { do 4 (destruct a as [|a]; [cbn; tauto|]). lia. }
  pose proof (Hv b (or_intror (or_introl eq_refl))) as Hb. inversion S1 as [|x y S2 F2]; subst. inversion F1 as [|x y F11 F12]; subst. destruct t as [|c t].
  { do 4 (destruct a as [|a]; [do 4 (destruct b as [|b]; [first [lia | cbn; tauto]|]); lia|]). lia. }
  pose proof (Hv c (or_intror (or_intror (or_introl eq_refl)))) as Hc. inversion S2 as [|x y S3 F3]; subst. inversion F2 as [|x y F21 F22]; subst. destruct t as [|e t].
  { do 4 (destruct a as [|a]; [do 4 (destruct b as [|b]; [first [lia|do 4 (destruct c as [|c]; [first [lia | cbn; tauto]|]); lia]|]); lia|]). lia. }
  pose proof (Hv e (or_intror (or_intror (or_intror (or_introl eq_refl))))) as He. inversion S3 as [|x y S4 F4]; subst. inversion F3 as [|x y F31 F32]; subst.
  assert (a = 0 /\ b = 1 /\ c = 2 /\ e = 3)%nat as (-> & -> & -> & ->) by lia. destruct t as [|f t]; [cbn; tauto|].
  pose proof (Hv f (or_intror (or_intror (or_intror (or_intror (or_introl eq_refl)))))) as Hf. inversion F4 as [|x y F41 F42]; subst. lia.
Qed.

Example octa_full : full_nerve octa_IN 4 octa_nerve.
Proof.
  intros n t q L Hi Hv. destruct (octa_low t Hi (fun v H => proj1 (Hv v H))) as [H|H]; [|subst; discriminate]. clear Hi Hv.
  cbn in H. repeat (destruct H as [<-|H]; [injection L as <-; cbn; tauto|]). contradiction.
Qed.

Example octa_fine d : fine octa_Dist 3 octa_IN 4 d.
Proof.
  intros s (_ & _ & Hv & Ha). change (length octa_Dist) with 7%nat in Hv. change (ins_of octa_IN 0) with (fun k => nth k octa_U []). cbv beta.
  assert (X1 : ~ (In 0%nat s /\ In 1%nat s)) by (intros [A B]; specialize (Ha _ _ A B ltac:(lia)); unfold near in Ha; vm_compute in Ha; discriminate).
  assert (X2 : ~ (In 4%nat s /\ In 5%nat s)) by (intros [A B]; specialize (Ha _ _ A B ltac:(lia)); unfold near in Ha; vm_compute in Ha; discriminate).
  exists ((if in_dec Nat.eq_dec 1%nat s then 2 else 0) + (if in_dec Nat.eq_dec 5%nat s then 1 else 0))%nat.
  destruct (in_dec Nat.eq_dec 1%nat s) as [H1|H1], (in_dec Nat.eq_dec 5%nat s) as [H5|H5]; (split; [lia|]); intros v H; specialize (Hv v H);
    do 7 (destruct v as [|v]; [first [exfalso; tauto | cbn; tauto]|]); lia.
Qed.

Example octa_acyclic : acyclic_cover 5 octa_Dist 3 3 octa_IN 4 octa_nerve.
Proof.
  destruct (zero_page stable_argsort (fun x => x) octa_Dist 3 3 5 octa_IN 4 octa_nerve) as [T|e] eqn:E.
  - apply (calm_page_ok _ _ _ _ _ _ _ _ _ T octa_input octa_pure E).
    assert (X : match zero_page stable_argsort (fun x => x) octa_Dist 3 3 5 octa_IN 4 octa_nerve with Ok T => calm_page 3 T | Err _ => false end = true) by (vm_compute; reflexivity).
    rewrite E in X. exact X.
  - exfalso. assert (X : match zero_page stable_argsort (fun x => x) octa_Dist 3 3 5 octa_IN 4 octa_nerve with Ok T => true | Err _ => false end = true) by (vm_compute; reflexivity).
    rewrite E in X. discriminate.
Qed.

Example octa_error : mv_ss stable_argsort (fun x => x) octa_Dist 3 3 5 octa_IN 4 octa_nerve = Err ValueError.
Proof. vm_compute. reflexivity. Qed.

Theorem acyclic_error : exists Dist max_r max_dim p IN n0 nerve,
  mv_input stable_argsort Dist max_r max_dim p IN n0 nerve /\ pure_nerve n0 nerve /\ full_nerve IN n0 nerve /\ acyclic_cover p Dist max_r max_dim IN n0 nerve /\ (forall d, fine Dist max_r IN n0 d) /\
  mv_ss stable_argsort (fun x => x) Dist max_r max_dim p IN n0 nerve = Err ValueError.
Proof.
  exists octa_Dist, 3, 3, 5, octa_IN, 4%nat, octa_nerve.
  exact (conj octa_input (conj octa_pure (conj octa_full (conj octa_acyclic (conj octa_fine octa_error))))).
Qed.

(** ** Cut before the last vertex joins the others, the class of degree 2 does not end *)
Lemma octa_input2 : mv_input stable_argsort octa_Dist 2 3 5 octa_IN 4 octa_nerve.
Proof. pose proof octa_input as []. constructor; auto; lia. Qed.

Lemma octa_fine2 d : fine octa_Dist 2 octa_IN 4 d.
Proof. intros s (A & B & C & D). apply (octa_fine d). split; [exact A|]. split; [exact B|]. split; [exact C|]. intros u v Hu Hv Huv. specialize (D u v Hu Hv Huv). unfold near in *. lia. Qed.

Lemma octa_acyclic2 : acyclic_cover 5 octa_Dist 2 3 octa_IN 4 octa_nerve.
Proof. intros n k d r c Hk Hd Hr. apply octa_acyclic; auto. lia. Qed.

Definition result_bars (x : res (ss * pages * list basis)) : res (list (list bar)) := match x with Ok (_, _, Hs) => Ok (map b_bars Hs) | Err e => Err e end.
Lemma octa_result2 : result_bars (mv_ss stable_argsort (fun x => x) octa_Dist 2 3 5 octa_IN 4 octa_nerve) = Ok [[(0, 2); (0, 2); (0, 1); (0, 1); (0, 1); (0, 1); (0, 1)]; [(1, 2)]].
Proof. vm_compute. reflexivity. Qed.

(** With the last vertex, the class of degree 2 ends at 2. *)
Lemma octa_bar : rips_barcode 5 octa_Dist 3 2 [(1, 2)].
Proof.
  assert (X : match local_homology stable_argsort (fun x => x) octa_Dist 3 3 5 with Ok (_, _, o) => b_bars (nth 2 (ph_hom o) empty_basis) | Err _ => [] end = [(1, 2)]) by (vm_compute; reflexivity).
  destruct (local_homology _ _ _ _ _ _) as [[[Cs Ds] o]|] eqn:E; [|discriminate]. rewrite <- X. destruct octa_input as [_ Hsq Hnn _ _ _ _].
  apply (C26_barcode_aux stable_argsort stable_argsort_sorts _ octa_Dist 3 3 5 Hsq Hnn ltac:(lia) octa_prime Cs Ds o E). cbn. lia.
Qed.

(** Cut at 2, every bar of positive degree reaches the end. *)
Lemma octa_reach : forall n bars x, (1 <= n < Z.to_nat 3)%nat -> rips_barcode 5 octa_Dist 2 n bars -> In x bars -> snd x = 2.
Proof.
  intros n bars x Hn HB Hx.
  assert (X : match local_homology stable_argsort (fun x => x) octa_Dist 2 3 5 with Ok (_, _, o) => [b_bars (nth 1 (ph_hom o) empty_basis); b_bars (nth 2 (ph_hom o) empty_basis)] | Err _ => [] end = [[]; [(1, 2)]]) by (vm_compute; reflexivity).
  destruct (local_homology _ _ _ _ _ _) as [[[Cs Ds] o]|] eqn:E; [|discriminate]. injection X as X1 X2. destruct octa_input2 as [_ Hsq Hnn _ _ _ _].
  pose proof (C26_barcode_unique_aux stable_argsort stable_argsort_sorts _ octa_Dist 2 3 5 Hsq Hnn ltac:(lia) octa_prime Cs Ds o E n bars ltac:(cbn in *; lia) HB) as P.
  assert (Hc : n = 1%nat \/ n = 2%nat) by (cbn in Hn; lia). destruct Hc as [-> | ->].
  - rewrite X1 in P. apply (Permutation.Permutation_in _ P) in Hx. destruct Hx.
  - rewrite X2 in P. apply (Permutation.Permutation_in _ P) in Hx. destruct Hx as [<-|[]]. reflexivity.
Qed.

Lemma octa_long : (1 < length octa_nerve)%nat.
Proof. vm_compute. lia. Qed.
