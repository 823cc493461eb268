(** * The tables of the pages have an entry at every position *)
From Coq Require Import QArith.
From Verif Require Import Base ListX Simp_lists Basis_model PH_model LC_model SS_model IK_model Cover_model HP_model HP_table HP_gens HP_two.
Local Open Scope Z_scope.

Definition tdef {A} (t : table A) (k n d : nat) : Prop := exists x, tget t k n d = Ok x.

Lemma tset_total {A} (t : table A) k n d x : tdef t k n d -> exists t', tset t k n d x = Ok t' /\ forall k' n' d', tdef t k' n' d' -> tdef t' k' n' d'.
Proof.
  intros [y Hy]. assert (E : exists t', tset t k n d x = Ok t').
  { unfold tget in Hy. unfold tset. destruct (nth_err t k) as [pg|]; [|discriminate]. cbn [bind] in *. destruct (nth_err pg n) as [c|]; [|discriminate]. cbn [bind] in *.
    destruct (nth_err c d) as [z|]; [|discriminate]. cbn [bind]. eauto. }
  destruct E as [t' E]. exists t'. split; [exact E|]. intros k' n' d' [z Hz]. unfold tdef. rewrite (tget_tset _ _ _ _ _ _ E). destruct (_ && _); eauto.
Qed.

Record shape (np cs m : nat) (P : pages) : Prop := {
  sh_hom : forall k n d, (1 <= k < np)%nat -> (n < cs)%nat -> (d < m)%nat -> tdef (h_hom P) k n d;
  sh_im : forall k n d, (1 <= k < np)%nat -> (n < cs)%nat -> (d < m)%nat -> tdef (h_im P) k n d;
  sh_pre : forall k n d, (1 <= k < np)%nat -> (n < cs)%nat -> (d < m)%nat -> tdef (h_preim P) k n d;
  sh_reps : forall k n d, (1 <= k < np)%nat -> (n < cs)%nat -> (d < m)%nat -> tdef (h_reps P) k n d;
  sh_dim : forall k n d, (k <= np)%nat -> (n < cs)%nat -> (d < m)%nat -> tdef (h_dim P) k n d
}.

Lemma init_shape np cs m : shape np cs m (init_pages np cs m).
Proof.
  unfold init_pages. constructor; cbn [h_hom h_im h_preim h_reps h_dim]; intros k n d Hk Hn Hd.
  1-3: eexists; apply tget_init; lia.
  - eexists. apply tget_init; lia.
  - exists 0%nat. unfold tget. rewrite nth_err_repeat by lia. cbn [bind]. rewrite nth_err_repeat by lia. cbn [bind]. apply nth_err_repeat. lia.
Qed.

Lemma add_output_total np cs m outs : forall P n d cp, shape np cs m P -> (1 <= cp < np)%nat -> (d < m)%nat -> (forall i, (i < length outs)%nat -> (n + i * cp < cs)%nat) ->
  exists P', add_output_higher P outs n d cp = Ok P' /\ shape np cs m P'.
Proof.
  induction outs as [|[[h im] pre] outs IH]; intros P n d cp HS Hcp Hd Hn; cbn [add_output_higher]; [eauto|].
  pose proof (Hn 0%nat ltac:(cbn; lia)) as Hn0. rewrite Nat.mul_0_l, Nat.add_0_r in Hn0. destruct HS as [S1 S2 S3 S4 S5].
  destruct (tset_total (h_preim P) cp n d pre) as (t1 & -> & T1); [apply S3; lia|]. cbn [bind].
  destruct (tset_total (h_hom P) cp n d h) as (t2 & -> & T2); [apply S1; lia|]. cbn [bind].
  destruct (tset_total (h_dim P) (1 + cp) n d (b_dim h)) as (t3 & E3 & T3); [apply S5; lia|]. rewrite E3. cbn [bind].
  destruct (tset_total (h_im P) cp n d (Some im)) as (t4 & -> & T4); [apply S2; lia|]. cbn [bind].
  apply IH; try lia.
  - constructor; cbn [h_hom h_im h_preim h_reps h_dim]; auto.
  - intros i Hi. specialize (Hn (S i) ltac:(cbn; lia)). cbn [Nat.mul] in Hn. lia.
Qed.

Lemma set_reps_total np cs m P k n d x : shape np cs m P -> (1 <= k < np)%nat -> (n < cs)%nat -> (d < m)%nat ->
  exists P', set_reps P k n d x = Ok P' /\ shape np cs m P'.
Proof.
  intros HS Hk Hn Hd. destruct HS as [S1 S2 S3 S4 S5]. unfold set_reps. destruct (tset_total (h_reps P) k n d x) as (t & -> & T); [auto|]. cbn [bind].
  eexists. split; [reflexivity|]. constructor; cbn [h_hom h_im h_preim h_reps h_dim]; auto.
Qed.

(** A loop of steps each of which has a result. *)
Lemma foldM_total {X St} (f : St -> X -> res St) (Q : St -> Prop) l : forall s, Q s -> (forall s x, In x l -> Q s -> exists s', f s x = Ok s' /\ Q s') -> exists s', foldM f l s = Ok s' /\ Q s'.
Proof.
  induction l as [|x l IH]; intros s Hs H; cbn [foldM]; [eauto|]. destruct (H s x ltac:(left; auto) Hs) as (s1 & -> & H1). cbn [bind].
  apply IH; auto. intros s' y Hy. apply H. right. exact Hy.
Qed.

Lemma window_total {C} (f : C * nat -> nat * nat -> res (C * nat)) (Q : C -> Prop) ds : forall s a c,
  (forall c prev kn, Nat.ltb prev (snd kn) = false -> f (c, prev) kn = Ok (c, snd kn)) ->
  (forall i c, (i < length ds)%nat -> Q c -> (0 < nth i ds 0)%nat ->
     exists c', f (c, (a + list_sum (firstn i ds))%nat) ((s + i)%nat, (a + list_sum (firstn i ds) + nth i ds 0)%nat) = Ok (c', (a + list_sum (firstn i ds) + nth i ds 0)%nat) /\ Q c') ->
  Q c -> exists st, foldM f (combine (seq s (length ds)) (cumulate a ds)) (c, a) = Ok st.
Proof.
  induction ds as [|x ds IH]; intros s a c H1 H2 HQ; [cbn; eauto|]. cbn [length seq cumulate combine foldM].
  assert (X : exists c', f (c, a) (s, (a + x)%nat) = Ok (c', (a + x)%nat) /\ Q c').
  { destruct (Nat.eq_dec x 0) as [->|Hx].
    - exists c. split; [|exact HQ]. rewrite H1; [reflexivity|]. cbn [snd]. apply Nat.ltb_ge. lia.
    - destruct (H2 0%nat c ltac:(cbn; lia) HQ ltac:(cbn; lia)) as (c' & E & Hc'). exists c'. split; [|exact Hc'].
      cbn [firstn nth list_sum fold_right] in E. rewrite !Nat.add_0_r in E. exact E. }
  destruct X as (c' & -> & Hc'). cbn [bind]. apply IH; auto.
  intros i c1 Hi Hc1 Hpos. destruct (H2 (S i) c1 ltac:(cbn; lia) Hc1 Hpos) as (c2 & E & Hc2). exists c2. split; [|exact Hc2].
  cbn [firstn nth] in E. change (list_sum (x :: firstn i ds)) with (x + list_sum (firstn i ds))%nat in E. rewrite <- plus_n_Sm, !Nat.add_assoc in E. exact E.
Qed.
