(** * A cover with acyclic intersections which separates two points at distance 0
    The degrees below [max_dim] are 0 and 1, so that no bar of degree 2 is looked for; [mv_ss] raises RuntimeError all the same. *)
From Coq Require Import QArith.
From Verif Require Import Base SortX Basis_model Simp_model Simp_props SS_model Cover_model HP_model Spec_Simp Spec_Rips Spec_SS Spec_Cech Spec_E2 Spec_MV PH_model Rips_bars Spec_Nerve Nerve_mv Nerve_err.
From Coq Require Import Znumtheory Sorted.
Local Open Scope Z_scope.

(** The points 2 and 3 are at distance 0 of each other and at the same distance of every other point. *)
Definition twin_Dist : list (list Z) := [[0;4;5;5;4]; [4;0;3;3;6]; [5;3;0;0;4]; [5;3;0;0;4]; [4;6;4;4;0]].
(** The third element has one of them. *)
Definition twin_U : list (list nat) := [[0;1;2;3]; [0;2;3;4]; [1;3]]%nat.
Definition twin_nerve : list (list (list nat)) := [[[0;1]; [0;2]; [1;2]]; [[0;1;2]]; []]%nat.
Definition twin_meet (s : list nat) : list nat := filter (fun q => forallb (fun v => existsb (Nat.eqb q) (nth v twin_U [])) s) (seq 0 5).
Definition twin_IN : list (list (list nat)) := twin_U :: map (map twin_meet) twin_nerve.

Ltac twin_incr := unfold increasing; repeat (first [apply SSorted_nil | apply SSorted_cons | apply Forall_nil | apply Forall_cons]); try lia.

(** It is a metric but for the two points. *)
Lemma twin_triangle : forall i j k, (i < 5)%nat -> (j < 5)%nat -> (k < 5)%nat -> dist twin_Dist i j <= dist twin_Dist i k + dist twin_Dist k j /\ dist twin_Dist i j = dist twin_Dist j i.
Proof.
  assert (X : forallb (fun i => forallb (fun j => forallb (fun k => (dist twin_Dist i j <=? dist twin_Dist i k + dist twin_Dist k j) && (dist twin_Dist i j =? dist twin_Dist j i)) (seq 0 5)) (seq 0 5)) (seq 0 5) = true) by (vm_compute; reflexivity).
  intros i j k Hi Hj Hk. rewrite forallb_forall in X. specialize (X i ltac:(apply in_seq; lia)). rewrite forallb_forall in X. specialize (X j ltac:(apply in_seq; lia)).
  rewrite forallb_forall in X. specialize (X k ltac:(apply in_seq; lia)). apply andb_true_iff in X. destruct X as [X Y]. apply Z.leb_le in X. apply Z.eqb_eq in Y. auto.
Qed.

Lemma twin_simplicial : simplicial 3 twin_nerve.
Proof.
  split; [|split].
  - intros [|[|[|[|[|d]]]]] s H; cbn in H; repeat (destruct H as [<-|H]); try contradiction; (split; [reflexivity|]; split; [twin_incr|]; intros v Hv; cbn in Hv; lia).
  - intros [|[|[|[|[|d]]]]]; cbn; repeat constructor; simpl; intuition discriminate.
  - intros [|[|[|[|d]]]] s k H Hk; cbn in H; repeat (destruct H as [<-|H]); try contradiction;
      do 4 (destruct k as [|k]; [first [cbn; tauto | exfalso; lia]|]); exfalso; lia.
Qed.

Lemma twin_meet_in s q : s <> [] -> (forall v, In v s -> (v < 3)%nat) -> In q (twin_meet s) <-> forall v, In v s -> In q (nth v twin_U []).
Proof.
  intros Hs Hv. unfold twin_meet. rewrite filter_In, forallb_forall, in_seq. split.
  - intros [_ H] v Hin. specialize (H v Hin). apply existsb_exists in H. destruct H as (x & Hx & E). apply Nat.eqb_eq in E. subst x. exact Hx.
  - intros H. split.
    + destruct s as [|v s]; [elim Hs; reflexivity|]. specialize (H v (or_introl eq_refl)). specialize (Hv v (or_introl eq_refl)).
      destruct v as [|[|[|v]]]; [..|lia]; cbn in H; lia.
    + intros v Hin. apply existsb_exists. exists q. split; [exact (H v Hin)|apply Nat.eqb_refl].
Qed.

Lemma twin_IN_nth n k : (k < length (level 3 twin_nerve (S n)))%nat -> nth k (nth (S n) twin_IN []) [] = twin_meet (nth k (level 3 twin_nerve (S n)) []).
Proof.
  intros Hk. cbn [level] in *. unfold twin_IN. cbn [nth].
  assert (X : nth n (map (map twin_meet) twin_nerve) [] = map twin_meet (nth n twin_nerve [])) by (rewrite <- (map_nth (map twin_meet)); reflexivity).
  rewrite X. rewrite (nth_indep _ [] (twin_meet []) ltac:(rewrite map_length; exact Hk)). apply map_nth.
Qed.

Lemma twin_IN_in d k : In (nth k (nth d twin_IN []) []) (concat twin_IN) \/ nth k (nth d twin_IN []) [] = [].
Proof.
  destruct (Nat.lt_ge_cases d (length twin_IN)) as [Hd|Hd]; [|right; rewrite (nth_overflow _ _ Hd); destruct k; reflexivity].
  destruct (Nat.lt_ge_cases k (length (nth d twin_IN []))) as [Hk|Hk]; [|right; apply nth_overflow; exact Hk].
  left. apply in_concat. exists (nth d twin_IN []). split; apply nth_In; assumption.
Qed.

Lemma twin_covering : covering 5 3 twin_nerve twin_IN.
Proof.
  constructor.
  - exact twin_simplicial.
  - discriminate.
  - reflexivity.
  - intros [|[|[|[|d]]]] H; reflexivity.
  - intros d k. destruct (twin_IN_in d k) as [H|H]; [|rewrite H; twin_incr]. revert H. generalize (nth k (nth d twin_IN []) []). intros l H. vm_compute in H.
    repeat (destruct H as [<-|H]; [twin_incr|]). contradiction.
  - intros d k q. destruct (twin_IN_in d k) as [H|H]; [|rewrite H; contradiction]. revert H. generalize (nth k (nth d twin_IN []) []). intros l H Hq. vm_compute in H.
    repeat (destruct H as [<-|H]; [cbn in Hq; lia|]). contradiction.
  - intros [|d] k q Hd Hk.
    + cbn [level] in *. rewrite map_length, seq_length in Hk. rewrite (nth_indep _ [] [0%nat] ltac:(rewrite map_length, seq_length; exact Hk)), (map_nth (fun v => [v])), seq_nth by exact Hk.
      split; [intros H v [<-|[]]; exact H|intros H; exact (H k (or_introl eq_refl))].
    + rewrite twin_IN_nth by exact Hk. destruct (proj1 twin_simplicial (S d) _ (nth_In _ [] Hk)) as (L & _ & V). apply twin_meet_in; [|exact V]. intros E. rewrite E in L. discriminate.
Qed.

Lemma twin_input : mv_input stable_argsort twin_Dist 6 2 5 twin_IN 3 twin_nerve.
Proof.
  constructor; [exact stable_argsort_sorts| | |lia|lia|exact octa_prime|exact twin_covering].
  - intros i H. do 5 (destruct i as [|i]; [reflexivity|]). cbn in H. lia.
  - intros u v [H1 H2]. change (length twin_Dist) with 5%nat in H2. do 5 (destruct v as [|v]; [do 5 (destruct u as [|u]; [vm_compute; discriminate|]); lia|]). lia.
Qed.

Lemma twin_pure : pure_nerve 3 twin_nerve.
Proof.
  split; [|reflexivity]. intros [|[|[|n]]] H; [right|right|left; reflexivity|cbn in H; lia]; intros t Ht; cbn in Ht; repeat (destruct Ht as [<-|Ht]); try contradiction.
  - exists [0;1]%nat, 1%nat. split; [cbn; tauto|split; [lia|reflexivity]].
  - exists [0;1]%nat, 0%nat. split; [cbn; tauto|split; [lia|reflexivity]].
  - exists [0;2]%nat, 0%nat. split; [cbn; tauto|split; [lia|reflexivity]].
  - exists [0;1;2]%nat, 2%nat. split; [cbn; tauto|split; [lia|reflexivity]].
  - exists [0;1;2]%nat, 1%nat. split; [cbn; tauto|split; [lia|reflexivity]].
  - exists [0;1;2]%nat, 0%nat. split; [cbn; tauto|split; [lia|reflexivity]].
Qed.

Lemma twin_low t : increasing t -> (forall v, In v t -> (v < 3)%nat) -> In t (concat (map (level 3 twin_nerve) (seq 0 3))) \/ t = [].
Proof.
  intros Hi Hv. destruct t as [|a t]; [right; reflexivity|left]. pose proof (Hv a (or_introl eq_refl)) as Ha.
  inversion Hi as [|x y S1 F1]; subst. destruct t as [|b t].
  { do 3 (destruct a as [|a]; [cbn; tauto|]). lia. }
  pose proof (Hv b (or_intror (or_introl eq_refl))) as Hb. inversion S1 as [|x y S2 F2]; subst. inversion F1 as [|x y F11 F12]; subst. destruct t as [|c t].
  { do 3 (destruct a as [|a]; [do 3 (destruct b as [|b]; [first [lia | cbn; tauto]|]); lia|]). lia. }
  pose proof (Hv c (or_intror (or_intror (or_introl eq_refl)))) as Hc. inversion S2 as [|x y S3 F3]; subst. inversion F2 as [|x y F21 F22]; subst.
  assert (a = 0 /\ b = 1 /\ c = 2)%nat as (-> & -> & ->) by lia. destruct t as [|f t]; [cbn; tauto|].
  pose proof (Hv f (or_intror (or_intror (or_intror (or_introl eq_refl))))) as Hf. inversion F3 as [|x y F31 F32]; subst. lia.
Qed.

Lemma twin_full : full_nerve twin_IN 3 twin_nerve.
Proof.
  intros n t q L Hi Hv. destruct (twin_low t Hi (fun v H => proj1 (Hv v H))) as [H|H]; [|subst; discriminate]. clear Hi Hv.
  cbn in H. repeat (destruct H as [<-|H]; [injection L as <-; cbn; tauto|]). contradiction.
Qed.

(** Only 1 and 4 are apart. *)
Lemma twin_fine d : fine twin_Dist 6 twin_IN 3 d.
Proof.
  intros s (_ & _ & Hv & Ha). change (length twin_Dist) with 5%nat in Hv. change (ins_of twin_IN 0) with (fun k => nth k twin_U []). cbv beta.
  assert (X1 : ~ (In 1%nat s /\ In 4%nat s)) by (intros [A B]; specialize (Ha _ _ A B ltac:(lia)); unfold near in Ha; vm_compute in Ha; discriminate).
  exists (if in_dec Nat.eq_dec 4%nat s then 1 else 0)%nat.
  destruct (in_dec Nat.eq_dec 4%nat s) as [H1|H1]; (split; [lia|]); intros v H; specialize (Hv v H);
    do 5 (destruct v as [|v]; [first [exfalso; tauto | cbn; tauto]|]); lia.
Qed.

Lemma twin_acyclic : acyclic_cover 5 twin_Dist 6 2 twin_IN 3 twin_nerve.
Proof.
  destruct (zero_page stable_argsort (fun x => x) twin_Dist 6 2 5 twin_IN 3 twin_nerve) as [T|e] eqn:E.
  - apply (calm_page_ok _ _ _ _ _ _ _ _ _ T twin_input twin_pure E).
    assert (X : match zero_page stable_argsort (fun x => x) twin_Dist 6 2 5 twin_IN 3 twin_nerve with Ok T => calm_page 2 T | Err _ => false end = true) by (vm_compute; reflexivity).
    rewrite E in X. exact X.
  - exfalso. assert (X : match zero_page stable_argsort (fun x => x) twin_Dist 6 2 5 twin_IN 3 twin_nerve with Ok T => true | Err _ => false end = true) by (vm_compute; reflexivity).
    rewrite E in X. discriminate.
Qed.

Lemma twin_error : mv_ss stable_argsort (fun x => x) twin_Dist 6 2 5 twin_IN 3 twin_nerve = Err RuntimeError.
Proof. vm_compute. reflexivity. Qed.

Theorem twin_refuted : exists Dist max_r p IN n0 nerve,
  mv_input stable_argsort Dist max_r 2 p IN n0 nerve /\ pure_nerve n0 nerve /\ (1 < length nerve)%nat /\ full_nerve IN n0 nerve /\ acyclic_cover p Dist max_r 2 IN n0 nerve /\ (forall d, fine Dist max_r IN n0 d) /\
  (forall i j k, (i < length Dist)%nat -> (j < length Dist)%nat -> (k < length Dist)%nat -> dist Dist i j <= dist Dist i k + dist Dist k j /\ dist Dist i j = dist Dist j i) /\
  mv_ss stable_argsort (fun x => x) Dist max_r 2 p IN n0 nerve = Err RuntimeError.
Proof.
  exists twin_Dist, 6, 5, twin_IN, 3%nat, twin_nerve.
  refine (conj twin_input (conj twin_pure (conj _ (conj twin_full (conj twin_acyclic (conj twin_fine (conj twin_triangle twin_error))))))). cbn. lia.
Qed.
