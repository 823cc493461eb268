(** * Farthest point sampling *)
From Verif Require Import Base ListX SortX PH_model Sample_model Spec_Sample.
From Coq Require Import Sorted Permutation.
Local Open Scope Z_scope.

Lemma fold_min l : forall x, (fold_left Z.min l x = x \/ In (fold_left Z.min l x) l) /\ fold_left Z.min l x <= x /\ forall y, In y l -> fold_left Z.min l x <= y.
Proof.
  induction l as [|z l IH]; intros x; cbn [fold_left].
  - split; auto. split; [lia|intros y []].
  - destruct (IH (Z.min x z)) as (H1 & H2 & H3). split; [|split].
    + destruct H1 as [H1|H1]; [|right; right; auto]. rewrite H1. destruct (Z.min_spec x z) as [[_ E]|[_ E]]; rewrite E; [left; auto|right; left; auto].
    + lia.
    + intros y [<-|Hy]; [lia|auto].
Qed.

Lemma np_min_spec l m : np_min l = Ok m -> In m l /\ forall y, In y l -> m <= y.
Proof.
  destruct l as [|x l]; cbn; [discriminate|]. intros E. injection E as <-. destruct (fold_min l x) as (H1 & H2 & H3). split.
  - destruct H1 as [H1|H1]; [left; auto|right; auto].
  - intros y [<-|Hy]; auto.
Qed.
Lemma np_min_total l : l <> [] -> exists m, np_min l = Ok m.
Proof. destruct l; [contradiction|]. intros _. eexists. reflexivity. Qed.

(** The first of the largest entries. *)
Definition first_max (l : list Z) (a : nat) : Prop :=
  (a < length l)%nat /\ (forall b, (b < length l)%nat -> nth b l 0 <= nth a l 0) /\ forall b, (b < a)%nat -> nth b l 0 < nth a l 0.

Lemma argmax_from_spec l : forall pre besti, first_max pre besti -> first_max (pre ++ l) (argmax_from (nth besti pre 0) besti (length pre) l).
Proof.
  induction l as [|x l IH]; intros pre besti (H1 & H2 & H3); cbn [argmax_from].
  - rewrite app_nil_r. split; auto.
  - replace (pre ++ x :: l) with ((pre ++ [x]) ++ l) by (rewrite <- app_assoc; reflexivity).
    assert (L : length (pre ++ [x]) = S (length pre)) by (rewrite app_length; cbn; lia).
    assert (Nx : nth (length pre) (pre ++ [x]) 0 = x) by (rewrite app_nth2, Nat.sub_diag by lia; reflexivity).
    assert (Np : forall b, (b < length pre)%nat -> nth b (pre ++ [x]) 0 = nth b pre 0) by (intros; apply app_nth1; auto).
    destruct (Z.ltb_spec (nth besti pre 0) x) as [Hx|Hx].
    + pose proof (IH (pre ++ [x]) (length pre)) as G. rewrite Nx, L in G. apply G. split; [lia|]. rewrite L, Nx. split.
      * intros b Hb. destruct (Nat.eq_dec b (length pre)) as [->|Hne]; [lia|]. rewrite Np by lia. specialize (H2 b ltac:(lia)). lia.
      * intros b Hb. rewrite Np by lia. specialize (H2 b ltac:(lia)). lia.
    + pose proof (IH (pre ++ [x]) besti) as G. rewrite Np, L in G by auto. apply G. split; [lia|]. rewrite L, Np by auto. split.
      * intros b Hb. destruct (Nat.eq_dec b (length pre)) as [->|Hne]; [lia|]. rewrite Np by lia. apply H2. lia.
      * intros b Hb. rewrite Np by lia. auto.
Qed.

Lemma np_argmax_spec l a : np_argmax l = Ok a -> first_max l a.
Proof.
  destruct l as [|x l]; cbn [np_argmax]; [discriminate|]. intros E. injection E as <-.
  apply (argmax_from_spec l [x] 0). split; [cbn; lia|]. split; [|intros; lia]. intros b Hb. cbn in Hb. destruct b; [|lia]. lia.
Qed.
Lemma np_argmax_total l : l <> [] -> exists a, np_argmax l = Ok a.
Proof. destruct l; [contradiction|]. intros _. eexists. reflexivity. Qed.

Lemma mapM_spec {A B} (f : A -> res B) (g : A -> B) l : (forall x, In x l -> f x = Ok (g x)) -> mapM f l = Ok (map g l).
Proof.
  induction l as [|x l IH]; intros H; cbn [mapM map]; auto. rewrite H by (left; auto). cbn [bind]. rewrite IH; auto. intros y Hy. apply H. right. auto.
Qed.

Lemma NoDup_app_snoc {A} (l : list A) x : NoDup l -> ~ In x l -> NoDup (l ++ [x]).
Proof. intros H Hx. apply NoDup_rev in H. rewrite <- (rev_involutive (l ++ [x])). apply NoDup_rev. rewrite rev_app_distr. cbn. constructor; auto. rewrite <- in_rev. auto. Qed.

Section Sample.
Context {P : Type}.
Variables (pts : list P) (D : mat) (d0 : P).
Notation n := (length pts).
Hypothesis HD : distances n D.

(** Index of the point selected by [k]. *)
Definition pix (k : Z) : nat := Z.to_nat (if k <? 0 then k + Z.of_nat n else k).
Lemma py_index_ok k : -1 <= k < Z.of_nat n -> (0 < n)%nat -> py_index n k = Ok (pix k) /\ (pix k < n)%nat.
Proof.
  intros Hk Hn. unfold py_index, pix. destruct (Z.leb_spec (- Z.of_nat n) k); [|lia]. destruct (Z.ltb_spec k (Z.of_nat n)); [|lia]. cbn [andb].
  split; auto. destruct (Z.ltb_spec k 0); lia.
Qed.
Lemma pix_nat k : pix (Z.of_nat k) = k.
Proof. unfold pix. destruct (Z.ltb_spec (Z.of_nat k) 0); lia. Qed.

(** The selection: a first element, possibly -1, then indices. *)
Record SInv (sel : list Z) (out : list P) : Prop := {
  s_head : exists k tl, sel = k :: map Z.of_nat tl /\ -1 <= k < Z.of_nat n /\ forall j, In j tl -> (j < n)%nat;
  s_out : out = map (fun j => nth j pts d0) (map pix sel);
  s_nodup : NoDup (map pix sel);
  s_far : farthest_first n D (map pix sel)
}.

Lemma map_pix_nat tl : map pix (map Z.of_nat tl) = tl.
Proof. rewrite map_map. rewrite <- (map_id tl) at 2. apply map_ext. apply pix_nat. Qed.

Lemma sel_range sel out : SInv sel out -> forall k, In k sel -> -1 <= k < Z.of_nat n.
Proof.
  intros [(k0 & tl & -> & H1 & H2) _ _ _] k [<-|Hk]; auto. apply in_map_iff in Hk. destruct Hk as (j & <- & Hj). specialize (H2 j Hj). lia.
Qed.

Lemma not_selected_In sel i : In i (not_selected n sel) <-> (i < n)%nat /\ ~ In (Z.of_nat i) sel.
Proof.
  unfold not_selected. rewrite filter_In, in_seq, negb_true_iff. split.
  - intros [H1 H2]. split; [lia|]. intros Hi. assert (memz (Z.of_nat i) sel = true); [|congruence]. apply existsb_exists. exists (Z.of_nat i). split; auto. apply Z.eqb_refl.
  - intros [H1 H2]. split; [lia|]. destruct (memz (Z.of_nat i) sel) eqn:E; auto. apply existsb_exists in E. destruct E as (x & Hx & E). apply Z.eqb_eq in E. subst. contradiction.
Qed.
Lemma not_selected_sorted sel : StronglySorted lt (not_selected n sel).
Proof. apply filter_sorted. apply seq_sorted. Qed.

Lemma short_avoids l : NoDup l -> (forall i, In i l -> (i < n)%nat) -> (length l < n)%nat -> exists j, (j < n)%nat /\ ~ In j l.
Proof.
  intros Hnd Hr Hl. destruct (existsb (fun j => negb (memn j l)) (seq 0 n)) eqn:E.
  - apply existsb_exists in E. destruct E as (j & Hj & E). apply in_seq in Hj. apply negb_true_iff in E. exists j. split; [lia|]. intros X. apply memn_In in X. congruence.
  - exfalso. assert (incl (seq 0 n) l).
    { intros j Hj. destruct (memn j l) eqn:Ej; [apply memn_In; auto|]. assert (existsb (fun j => negb (memn j l)) (seq 0 n) = true); [|congruence].
      apply existsb_exists. exists j. rewrite Ej. auto. }
    apply NoDup_incl_length in H; [|apply seq_NoDup]. rewrite seq_length in H. lia.
Qed.

Lemma sample_step_inv sel out x : SInv sel out -> (length sel < n)%nat ->
  exists sel' out', sample_step pts D (sel, out) x = Ok (sel', out') /\ SInv sel' out' /\ length sel' = S (length sel) /\ exists k, sel' = sel ++ [Z.of_nat k].
Proof.
  intros HI Hlen. pose proof (sel_range sel out HI) as Hr. pose proof HI as [(k0 & tl & Esel & Hk0 & Htl) Hout Hnd Hfar].
  assert (Hn : (0 < n)%nat) by lia.
  unfold sample_step. rewrite (mapM_spec _ pix) by (intros k Hk; apply py_index_ok; auto). cbn [bind].
  set (idx := map pix sel) in *.
  assert (Hidx : forall i, In i idx -> (i < n)%nat) by (intros i Hi; apply in_map_iff in Hi; destruct Hi as (k & <- & Hk); apply py_index_ok; auto).
  assert (Hne : idx <> []) by (unfold idx; rewrite Esel; discriminate).
  set (mn := fun i => match np_min (map (get D i) idx) with Ok m => m | Err _ => 0 end).
  assert (Hmn : forall i, np_min (map (get D i) idx) = Ok (mn i)).
  { intros i. unfold mn. destruct (np_min_total (map (get D i) idx)) as (m & ->); auto. intros E. apply map_eq_nil in E. contradiction. }
  rewrite (mapM_spec _ mn) by (intros; apply Hmn). cbn [bind].
  destruct (short_avoids idx Hnd Hidx) as (j0 & Hj0 & Hj0').
  { unfold idx. rewrite map_length. auto. }
  assert (Hin : forall j, (j < n)%nat -> ~ In j idx -> In j (not_selected n sel)).
  { intros j Hj Hj'. apply not_selected_In. split; auto. intros X. apply Hj'. apply in_map_iff. exists (Z.of_nat j). split; auto. apply pix_nat. }
  destruct (np_argmax_total (map mn (not_selected n sel))) as (a & Ea).
  { intros E. apply map_eq_nil in E. specialize (Hin j0 Hj0 Hj0'). rewrite E in Hin. destruct Hin. }
  rewrite Ea. cbn [bind]. apply np_argmax_spec in Ea. destruct Ea as (A1 & A2 & A3). rewrite map_length in A1, A2.
  set (k := nth a (not_selected n sel) 0%nat).
  assert (Hk : In k (not_selected n sel)) by (apply nth_In; auto). apply not_selected_In in Hk as Hk'. destruct Hk' as [Hkn Hks].
  assert (Emn : forall b, (b < length (not_selected n sel))%nat -> nth b (map mn (not_selected n sel)) 0 = mn (nth b (not_selected n sel) 0%nat)).
  { intros b Hb. apply nth_map. auto. }
  assert (Hmax : forall j, In j (not_selected n sel) -> mn j <= mn k).
  { intros j Hj. apply In_nth with (d := 0%nat) in Hj. destruct Hj as (b & Hb & <-). specialize (A2 b Hb). rewrite !Emn in A2 by auto. exact A2. }
  assert (Hnew : ~ In k idx).
  { intros X. unfold idx in X. rewrite Esel in X. cbn [map] in X. rewrite map_pix_nat in X. destruct X as [X|X].
    2:{ apply Hks. rewrite Esel. right. apply in_map. auto. }
    assert (k0 = -1). { destruct (Z.eq_dec k0 (-1)) as [|Hne']; auto. elim Hks. rewrite Esel. left. unfold pix in X. destruct (Z.ltb_spec k0 0); lia. }
    assert (Ek : k = (n - 1)%nat) by (unfold pix in X; destruct (Z.ltb_spec k0 0); lia).
    assert (Hkk : mn k <= 0).
    { destruct (np_min_spec _ _ (Hmn k)) as [_ M]. apply M. apply in_map_iff. exists k. split; [apply HD; auto|]. unfold idx. rewrite Esel. left. auto. }
    assert (Hj0n : j0 <> (n - 1)%nat). { intros ->. apply Hj0'. unfold idx. rewrite Esel. left. lia. }
    pose proof (Hin j0 Hj0 Hj0') as Hj. apply In_nth with (d := 0%nat) in Hj. destruct Hj as (b & Hb & Eb).
    assert (b < a)%nat.
    { destruct (lt_eq_lt_dec b a) as [[|E]|Hlt]; auto.
      - subst b. unfold k in Ek. lia.
      - exfalso. pose proof (sorted_nth lt (not_selected n sel) 0%nat (not_selected_sorted sel) a b ltac:(lia)) as Y. fold k in Y. lia. }
    specialize (A3 b H0). rewrite !Emn in A3 by auto. fold k in A3. rewrite Eb in A3.
    assert (0 <= mn j0). { destruct (np_min_spec _ _ (Hmn j0)) as [M _]. apply in_map_iff in M. destruct M as (t & <- & Ht). apply HD; auto. }
    lia. }
  assert (Ept : nth_err pts k = Ok (nth k pts d0)).
  { unfold nth_err. destruct (nth_error pts k) eqn:E; [rewrite (nth_error_nth pts k d0 E); reflexivity|apply nth_error_None in E; lia]. }
  rewrite Ept. cbn [bind]. exists (sel ++ [Z.of_nat k]), (out ++ [nth k pts d0]). split; auto. split; [|split; [rewrite app_length; cbn; lia|exists k; auto]].
  assert (Eidx : map pix (sel ++ [Z.of_nat k]) = idx ++ [k]) by (rewrite map_app; cbn [map]; rewrite pix_nat; reflexivity).
  constructor.
  - exists k0, (tl ++ [k]). split; [rewrite Esel, map_app; reflexivity|]. split; auto. intros j Hj. apply in_app_or in Hj. destruct Hj as [Hj|[<-|[]]]; auto.
  - rewrite Eidx, map_app. rewrite Hout. reflexivity.
  - rewrite Eidx. apply NoDup_app_snoc; auto.
  - rewrite Eidx. intros i Hi j Hj Hj'. rewrite app_length in Hi. cbn [length] in Hi.
    destruct (Nat.eq_dec i (length idx)) as [->|Hne'].
    + rewrite firstn_app, firstn_all, Nat.sub_diag in *. cbn [firstn] in *. rewrite app_nil_r in *. rewrite app_nth2, Nat.sub_diag by lia. cbn [nth].
      specialize (Hmax j (Hin j Hj Hj')). destruct (np_min_spec _ _ (Hmn j)) as [Mj _]. apply in_map_iff in Mj. destruct Mj as (t & Et & Ht).
      exists t. split; auto. intros t' Ht'. rewrite Et. destruct (np_min_spec _ _ (Hmn k)) as [_ M]. specialize (M (get D k t')). 
      rewrite Hmax. apply M. apply in_map. auto.
    + rewrite firstn_app in *. replace (i - length idx)%nat with 0%nat in * by lia. cbn [firstn] in *. rewrite app_nil_r in *. rewrite app_nth1 by lia.
      apply Hfar; auto. lia.
Qed.

Lemma sample_loop l : forall sel out, SInv sel out -> (length sel + length l <= n)%nat ->
  exists sel' out', foldM (sample_step pts D) l (sel, out) = Ok (sel', out') /\ SInv sel' out' /\ (length sel' = length sel + length l)%nat /\
    hd 0 sel' = hd 0 sel.
Proof.
  induction l as [|x l IH]; intros sel out HI Hl; cbn [foldM length] in *.
  - exists sel, out. refine (conj eq_refl (conj HI (conj _ eq_refl))). lia.
  - destruct (sample_step_inv sel out x HI ltac:(lia)) as (sel1 & out1 & E & HI1 & L1 & k & Ek). rewrite E. cbn [bind].
    destruct (IH sel1 out1 HI1 ltac:(lia)) as (sel2 & out2 & E2 & HI2 & L2 & H2). exists sel2, out2. split; auto. split; auto. split; [lia|].
    rewrite H2, Ek. destruct HI as [(k0 & tl & -> & _) _ _ _]. reflexivity.
Qed.

Lemma take_sample_aux0 k draw : 1 <= k -> 0 <= draw < Z.of_nat n ->
  exists idx, take_sample pts D k draw = Ok (map (fun j => nth j pts d0) idx) /\
    Z.of_nat (length idx) = Z.min (Z.of_nat n) k /\ NoDup idx /\ (forall i, In i idx -> (i < n)%nat) /\
    hd 0%nat idx = Z.to_nat ((draw - 1) mod Z.of_nat n) /\ farthest_first n D idx.
Proof.
  intros Hk Hd. assert (Hn : (0 < n)%nat) by lia. unfold take_sample.
  destruct (py_index_ok (draw - 1)) as [-> Hp]; [lia|auto|]. cbn [bind].
  assert (Ept : nth_err pts (pix (draw - 1)) = Ok (nth (pix (draw - 1)) pts d0)).
  { unfold nth_err. destruct (nth_error pts (pix (draw - 1))) eqn:E; [rewrite (nth_error_nth pts _ d0 E); reflexivity|apply nth_error_None in E; lia]. }
  rewrite Ept. cbn [bind].
  destruct (sample_loop (seq 0 (Z.to_nat (Z.min (Z.of_nat n) k - 1))) [draw - 1] [nth (pix (draw - 1)) pts d0]) as (sel & out & E & HI & L & Hh).
  { constructor.
    - exists (draw - 1), []. split; auto. split; [lia|intros j []].
    - reflexivity.
    - constructor; [intros []|constructor].
    - intros i Hi. cbn in Hi. lia. }
  { rewrite seq_length. cbn [length]. lia. }
  rewrite E. cbn [bind]. pose proof (sel_range sel out HI) as Hr. pose proof HI as [_ Ho Hnd Hf]. exists (map pix sel). rewrite <- Ho. split; auto.
  rewrite seq_length in L. cbn [length] in L. split; [rewrite map_length; lia|]. split; auto. split; [|split; auto].
  - intros i Hi. apply in_map_iff in Hi. destruct Hi as (z & <- & Hz). apply py_index_ok; auto.
  - destruct sel as [|z sel]; [cbn in L; lia|]. cbn [hd map] in *. subst z. unfold pix. destruct (Z.ltb_spec (draw - 1) 0) as [Hz|Hz].
    + f_equal. replace draw with 0 by lia. rewrite <- (Z.mod_small (0 - 1 + Z.of_nat n) (Z.of_nat n)) by lia.
      rewrite <- (Z.mod_add (0 - 1) 1 (Z.of_nat n)) by lia. f_equal. lia.
    + rewrite Z.mod_small by lia. reflexivity.
Qed.
End Sample.

Lemma take_sample_aux {P} (pts : list P) D k draw d0 : distances (length pts) D -> 1 <= k -> 0 <= draw < Z.of_nat (length pts) ->
  exists idx, take_sample pts D k draw = Ok (map (fun j => nth j pts d0) idx) /\
    Z.of_nat (length idx) = Z.min (Z.of_nat (length pts)) k /\ NoDup idx /\ (forall i, In i idx -> (i < length pts)%nat) /\
    hd 0%nat idx = Z.to_nat ((draw - 1) mod Z.of_nat (length pts)) /\ farthest_first (length pts) D idx.
Proof. intros HD. apply take_sample_aux0. auto. Qed.

Lemma take_sample_few_aux {P} (pts : list P) D k draw : k <= 0 -> 0 <= draw < Z.of_nat (length pts) ->
  exists x, take_sample pts D k draw = Ok [x] /\ In x pts.
Proof.
  intros Hk Hd. unfold take_sample. destruct (py_index_ok pts (draw - 1)) as [-> Hp]; [lia|lia|]. cbn [bind].
  unfold nth_err. destruct (nth_error pts (pix pts (draw - 1))) eqn:E; [|apply nth_error_None in E; lia]. cbn [bind].
  replace (Z.to_nat (Z.min (Z.of_nat (length pts)) k - 1)) with 0%nat by lia. cbn. exists p. split; auto. apply (nth_error_In _ _ E).
Qed.

Lemma take_sample_empty_aux {P} D k draw : exists e, take_sample (@nil P) D k draw = Err e.
Proof.
  exists IndexError. unfold take_sample, py_index. cbn [length Z.of_nat Z.opp]. destruct (Z.leb_spec 0 (draw - 1)), (Z.ltb_spec (draw - 1) 0); try lia; reflexivity.
Qed.
