(** * The flag complex lists the cliques of the graph *)
From Verif Require Import Base ListX SortX PH_model Simp_model Spec_Simp Simp_lists Simp_vr.
From Coq Require Import Sorted Permutation.
Local Open Scope Z_scope.

Section Flag.
Variable G : list (nat * nat).
Variable n : nat.
Hypothesis HG : NoDup G.
Hypothesis HGn : forall u v, In (u, v) G -> (u < v < n)%nat.
Let adj u v := In (u, v) G.

Lemma fl_lower_In u v : In u (fl_lower G v) <-> In (u, v) G.
Proof.
  unfold fl_lower. rewrite nunique_In, in_map_iff. split.
  - intros ([a b] & <- & H). apply filter_In in H. destruct H as [H E]. apply Nat.eqb_eq in E. simpl in *.
    specialize (HGn a b H). replace (Nat.min a b) with a by lia. replace v with b by lia. auto.
  - intros H. exists (u, v). simpl. specialize (HGn u v H). split; [lia|].
    apply filter_In. split; auto. simpl. apply Nat.eqb_eq. lia.
Qed.

Lemma fl_common_ok s : s <> [] -> exists l, fl_common G s = Ok l /\ increasing l /\
  forall u, In u l <-> forall v, In v s -> In (u, v) G.
Proof.
  destruct s as [|w vs]; [congruence|]. intros _. eexists. split; [reflexivity|].
  enough (H : forall l0, increasing l0 -> let l := fold_left (fun N v => intersect1d N (fl_lower G v)) vs l0 in
     increasing l /\ forall u, In u l <-> In u l0 /\ forall v, In v vs -> In (u, v) G).
  { destruct (H (fl_lower G w)) as [H1 H2]; [apply nunique_sorted|]. split; auto. intros u.
    rewrite H2, fl_lower_In. simpl. split.
    - intros [Hw Hv] v [<-|Hv']; auto.
    - intros Hv. split; auto. }
  induction vs as [|v vs IH]; intros l0 Hl0 l.
  - split; auto. intros u. simpl. split; [split; auto; intros _ []|tauto].
  - destruct (IH (intersect1d l0 (fl_lower G v))) as [H1 H2].
    { apply filter_sorted, nunique_sorted. }
    split; auto. intros u. unfold l. simpl. rewrite H2, intersect1d_In, fl_lower_In. split.
    + intros ((H0 & H3) & H4). split; auto. intros w' [<-|Hw']; auto.
    + intros (H0 & H3). repeat split; auto.
Qed.

Definition flag_ok (d : nat) (L : list simplex) : Prop :=
  NoDup L /\ forall s, In s L <-> clique n adj d s.

Lemma fl_step_ok d L : flag_ok d L -> exists L', fl_step G L = Ok L' /\ flag_ok (S d) L'.
Proof.
  intros [HL Hin].
  set (low := fun s => match fl_common G s with Ok l => l | Err _ => [] end).
  assert (Hlow : forall s, s <> [] -> fl_common G s = Ok (low s) /\ increasing (low s) /\
     forall u, In u (low s) <-> forall v, In v s -> In (u, v) G).
  { intros s Hs. destruct (fl_common_ok s Hs) as (l & E & H). unfold low. rewrite E. auto. }
  assert (Hne : forall s, In s L -> s <> []).
  { intros s H. apply Hin in H. destruct H as (Hl & _). destruct s; simpl in *; congruence. }
  exists (flat_map (fun s => map (fun v => v :: s) (low s)) L). split; [|split].
  - apply flat_mapM_pure. intros s Hs. destruct (Hlow s (Hne s Hs)) as (E & _). rewrite E. reflexivity.
  - apply NoDup_flat_map; auto.
    + intros s Hs. destruct (Hlow s (Hne s Hs)) as (_ & H & _).
      apply NoDup_map_on; [apply increasing_NoDup; auto|]. congruence.
    + intros s s' z _ _ H H'. apply in_map_iff in H, H'. destruct H as (v & <- & _), H' as (v' & E' & _). congruence.
  - intros s. rewrite in_flat_map. split.
    + intros (s0 & Hs & H). apply in_map_iff in H. destruct H as (v & <- & Hv).
      destruct (Hlow s0 (Hne s0 Hs)) as (_ & _ & Hl). rewrite Hl in Hv.
      apply clique_cons. split; [apply Hin; auto|]. split.
      * specialize (Hne s0 Hs). destruct s0 as [|w s0]; [congruence|].
        specialize (HGn v w (Hv w (or_introl eq_refl))). lia.
      * intros u Hu. split; [|apply Hv; auto]. specialize (HGn v u (Hv u Hu)). lia.
    + intros Hc. destruct s as [|v s]; [destruct Hc as (Hl & _); simpl in Hl; lia|].
      apply clique_cons in Hc. destruct Hc as (Hc & Hv & Hu). apply Hin in Hc.
      exists s. split; auto. apply in_map_iff. exists v. split; auto.
      destruct (Hlow s (Hne s Hc)) as (_ & _ & Hl). apply Hl. intros u Hu'. apply Hu; auto.
Qed.

Lemma fl_levels_ok k d L : flag_ok d L -> exists Ls, fl_levels G k L = Ok Ls /\ length Ls = k /\
  forall i, (i < k)%nat -> flag_ok (S d + i) (nth i Ls []).
Proof.
  revert d L. induction k as [|k IH]; intros d L HL; simpl.
  - exists []. split; auto. split; auto. intros; lia.
  - destruct (fl_step_ok d L HL) as (L' & E & HL'). rewrite E. simpl.
    destruct (IH (S d) L' HL') as (Ls & E' & Hl & H). rewrite E'. simpl.
    exists (L' :: Ls). split; auto. split; [simpl; lia|].
    intros [|i] Hi; simpl.
    + replace (S (d + 0)) with (S d) by lia. auto.
    + replace (S (d + S i)) with (S (S d) + i)%nat by lia. apply H. lia.
Qed.

Theorem flag_complex_ok max_dim : 0 <= max_dim -> exists Ls,
  flag_complex G n max_dim = Ok (n, Ls) /\ length Ls = Z.to_nat max_dim /\
  forall d, (d < length Ls)%nat -> flag_ok (S d) (nth d Ls []).
Proof.
  intros H. unfold flag_complex. destruct (Z.ltb_spec max_dim 0); [lia|].
  destruct (Z.eqb_spec max_dim 0) as [->|Hne].
  - exists []. split; auto. split; auto. simpl. intros; lia.
  - assert (H1 : flag_ok 1 (map (fun e => [fst e; snd e]) G)).
    { split.
      - apply NoDup_map_on; auto. intros [a b] [a' b'] _ _. simpl. congruence.
      - intros s. rewrite clique_edge, in_map_iff. split.
        + intros ([u v] & <- & Hu). exists u, v. auto.
        + intros (u & v & -> & _ & Ha). exists (u, v). auto. }
    destruct (fl_levels_ok (Z.to_nat max_dim - 1) 1 _ H1) as (Ls & E & Hl & HL). cbv zeta. rewrite E. simpl.
    eexists. split; [reflexivity|]. split; [simpl; lia|].
    intros [|d] Hd; simpl; auto. simpl in Hd. replace (S (S d)) with (2 + d)%nat by lia. apply HL. lia.
Qed.
End Flag.
