(** * Reading and writing the tables of the pages *)
From Verif Require Import Base ListX Simp_lists Basis_model PH_model SS_model IK_model HP_model.
Local Open Scope Z_scope.

Lemma nth_err_lt {A} (l : list A) i x : nth_err l i = Ok x -> (i < length l)%nat.
Proof. revert i. induction l as [|y l IH]; intros [|i] H; cbn in *; try discriminate; [lia|]. apply IH in H. lia. Qed.

Lemma nth_err_set {A} (l : list A) i j x : nth_err (list_set l i x) j = if Nat.eqb j i then match nth_err l i with Ok _ => Ok x | Err e => Err e end else nth_err l j.
Proof.
  revert i j. induction l as [|y l IH]; intros [|i] [|j]; cbn; try reflexivity.
  - destruct (Nat.eqb j i); reflexivity.
  - apply IH.
Qed.

Section Table.
Context {A : Type}.
Implicit Types t : table A.

Lemma tget_tset t t' k n d x : tset t k n d x = Ok t' ->
  forall k' n' d', tget t' k' n' d' = if Nat.eqb k' k && Nat.eqb n' n && Nat.eqb d' d then Ok x else tget t k' n' d'.
Proof.
  unfold tset, tget. intros E k' n' d'. destruct (nth_err t k) as [pg|] eqn:E1; [|discriminate]. cbn [bind] in E.
  destruct (nth_err pg n) as [c|] eqn:E2; [|discriminate]. cbn [bind] in E.
  destruct (nth_err c d) as [y|] eqn:E3; [|discriminate]. cbn [bind] in E. injection E as <-.
  rewrite nth_err_set. destruct (Nat.eqb_spec k' k) as [->|Hk]; [|reflexivity]. rewrite E1. cbn [bind].
  rewrite nth_err_set. destruct (Nat.eqb_spec n' n) as [->|Hn]; [|reflexivity]. rewrite E2. cbn [bind].
  rewrite nth_err_set. destruct (Nat.eqb_spec d' d) as [->|Hd]; [|reflexivity]. rewrite E3. reflexivity.
Qed.
End Table.

(** ** [add_output_higher] *)
Lemma set_reps_hom P k n d x P' : set_reps P k n d x = Ok P' -> h_hom P' = h_hom P /\ h_im P' = h_im P /\ h_preim P' = h_preim P /\ h_dim P' = h_dim P.
Proof. unfold set_reps. destruct (tset (h_reps P) k n d x); [|discriminate]. cbn [bind]. intros E. injection E as <-. auto. Qed.

Lemma add_output_other outs : forall P n d cp P', (0 < cp)%nat -> add_output_higher P outs n d cp = Ok P' ->
  forall k' n' d', (k' <> cp \/ (n' < n)%nat) -> tget (h_hom P') k' n' d' = tget (h_hom P) k' n' d' /\ tget (h_im P') k' n' d' = tget (h_im P) k' n' d' /\
    tget (h_preim P') k' n' d' = tget (h_preim P) k' n' d'.
Proof.
  induction outs as [|[[h im] pre] outs IH]; intros P n d cp P' Hcp E k' n' d' Hk; cbn [add_output_higher] in E; [injection E as <-; auto|].
  destruct (tset (h_preim P) cp n d pre) as [a|] eqn:E1; [|discriminate]. cbn [bind] in E.
  destruct (tset (h_hom P) cp n d h) as [b|] eqn:E2; [|discriminate]. cbn [bind] in E.
  destruct (tset (h_dim P) (1 + cp) n d (b_dim h)) as [c|] eqn:E3; [|discriminate]. cbn [bind] in E.
  destruct (tset (h_im P) cp n d (Some im)) as [e|] eqn:E4; [|discriminate]. cbn [bind] in E.
  destruct (IH _ _ _ _ _ Hcp E k' n' d') as (I1 & I2 & I3); [destruct Hk; [left; auto|right; lia]|]. cbn [h_hom h_im h_preim] in *.
  rewrite I1, I2, I3, (tget_tset _ _ _ _ _ _ E2), (tget_tset _ _ _ _ _ _ E4), (tget_tset _ _ _ _ _ _ E1).
  assert (Nat.eqb k' cp && Nat.eqb n' n = false) as ->; [|auto].
  destruct (Nat.eqb_spec k' cp) as [->|]; [|reflexivity]. destruct Hk as [Hk|Hk]; [congruence|]. destruct (Nat.eqb_spec n' n); [lia|reflexivity].
Qed.

Lemma add_output_row outs : forall P n d cp P', (0 < cp)%nat -> add_output_higher P outs n d cp = Ok P' ->
  forall n' d', (forall i, (i < length outs)%nat -> (n' <> n + i * cp \/ d' <> d - i * (cp - 1))%nat) -> tget (h_hom P') cp n' d' = tget (h_hom P) cp n' d'.
Proof.
  induction outs as [|[[h im] pre] outs IH]; intros P n d cp P' Hcp E n' d' Hk; cbn [add_output_higher] in E; [injection E as <-; auto|].
  destruct (tset (h_preim P) cp n d pre) as [a|] eqn:E1; [|discriminate]. cbn [bind] in E.
  destruct (tset (h_hom P) cp n d h) as [b|] eqn:E2; [|discriminate]. cbn [bind] in E.
  destruct (tset (h_dim P) (1 + cp) n d (b_dim h)) as [c|] eqn:E3; [|discriminate]. cbn [bind] in E.
  destruct (tset (h_im P) cp n d (Some im)) as [e|] eqn:E4; [|discriminate]. cbn [bind] in E.
  rewrite (IH _ _ _ _ _ Hcp E n' d').
  - cbn [h_hom]. rewrite (tget_tset _ _ _ _ _ _ E2). rewrite Nat.eqb_refl. cbn [andb].
    destruct (Nat.eqb_spec n' n) as [->|]; [|reflexivity]. destruct (Nat.eqb_spec d' d) as [->|]; [|reflexivity].
    destruct (Hk 0%nat); cbn; lia.
  - intros i Hi. destruct (Hk (S i)) as [H|H]; [cbn [length]; lia|left|right]; cbn [Nat.mul] in H; lia.
Qed.

Lemma add_output_reps outs : forall P n d cp P', add_output_higher P outs n d cp = Ok P' -> h_reps P' = h_reps P.
Proof.
  induction outs as [|[[h im] pre] outs IH]; intros P n d cp P' E; cbn [add_output_higher] in E; [injection E as <-; auto|].
  destruct (tset (h_preim P) cp n d pre) as [a|] eqn:E1; [|discriminate]. cbn [bind] in E.
  destruct (tset (h_hom P) cp n d h) as [b|] eqn:E2; [|discriminate]. cbn [bind] in E.
  destruct (tset (h_dim P) (1 + cp) n d (b_dim h)) as [c|] eqn:E3; [|discriminate]. cbn [bind] in E.
  destruct (tset (h_im P) cp n d (Some im)) as [e|] eqn:E4; [|discriminate]. cbn [bind] in E.
  rewrite (IH _ _ _ _ _ E). reflexivity.
Qed.

(** What is written: the position moves by [cp] columns and [cp - 1] rows. *)
Lemma add_output_same outs : forall P n d cp P', (0 < cp)%nat -> add_output_higher P outs n d cp = Ok P' ->
  forall i h im pre, nth_error outs i = Some (h, im, pre) ->
  tget (h_hom P') cp (n + i * cp) (d - i * (cp - 1)) = Ok h /\ tget (h_im P') cp (n + i * cp) (d - i * (cp - 1)) = Ok (Some im) /\
  tget (h_preim P') cp (n + i * cp) (d - i * (cp - 1)) = Ok pre.
Proof.
  induction outs as [|[[h im] pre] outs IH]; intros P n d cp P' Hcp E i h' im' pre' Hi; [destruct i; discriminate|]. cbn [add_output_higher] in E.
  destruct (tset (h_preim P) cp n d pre) as [a|] eqn:E1; [|discriminate]. cbn [bind] in E.
  destruct (tset (h_hom P) cp n d h) as [b|] eqn:E2; [|discriminate]. cbn [bind] in E.
  destruct (tset (h_dim P) (1 + cp) n d (b_dim h)) as [c|] eqn:E3; [|discriminate]. cbn [bind] in E.
  destruct (tset (h_im P) cp n d (Some im)) as [e|] eqn:E4; [|discriminate]. cbn [bind] in E.
  destruct i as [|i]; cbn [nth_error] in Hi.
  - injection Hi as -> -> ->. cbn [Nat.mul]. rewrite Nat.add_0_r, Nat.sub_0_r.
    destruct (add_output_other outs _ _ _ _ _ Hcp E cp n d) as (I1 & I2 & I3); [right; lia|]. cbn [h_hom h_im h_preim] in *.
    rewrite I1, I2, I3, (tget_tset _ _ _ _ _ _ E2), (tget_tset _ _ _ _ _ _ E4), (tget_tset _ _ _ _ _ _ E1), !Nat.eqb_refl. auto.
  - pose proof (IH _ _ _ _ _ Hcp E i h' im' pre' Hi) as H. replace (n + S i * cp)%nat with (n + cp + i * cp)%nat by (cbn; lia).
    replace (d - S i * (cp - 1))%nat with (d - (cp - 1) - i * (cp - 1))%nat by (cbn [Nat.mul]; lia). exact H.
Qed.

(** ** Representatives leave the other tables alone *)
Lemma two_page_hom S P n d P' : compute_two_page_representatives S P n d = Ok P' -> h_hom P' = h_hom P /\ h_im P' = h_im P /\ h_preim P' = h_preim P /\ h_dim P' = h_dim P.
Proof.
  unfold compute_two_page_representatives. destruct (tget (h_hom P) 1 n d) as [h|]; [|discriminate]. cbn [bind].
  destruct (Nat.eqb (b_dim h) 0); [intros E; injection E as <-; auto|]. destruct (cycle_dims S n d); [|discriminate]. cbn [bind].
  destruct (localize _ _ _ _ _ _); [|discriminate]. cbn [bind]. intros E. match type of E with bind ?x _ = _ => destruct x; [|discriminate] end. cbn [bind] in E.
  apply set_reps_hom in E. auto.
Qed.

Lemma higher_hom rnd S P n d cp P' : compute_higher_representatives rnd S P n d cp = Ok P' -> h_hom P' = h_hom P /\ h_im P' = h_im P /\ h_preim P' = h_preim P /\ h_dim P' = h_dim P.
Proof.
  unfold compute_higher_representatives. destruct (tget (h_hom P) cp n d) as [h|]; [|discriminate]. cbn [bind].
  destruct (Nat.eqb (b_dim h) 0); [apply set_reps_hom|]. destruct (tget (h_reps P) (cp - 1) n d) as [prev|]; [|discriminate]. cbn [bind].
  destruct (mapM _ prev) as [total|]; [|discriminate]. cbn [bind]. destruct (Nat.ltb n cp); [apply set_reps_hom|].
  destruct (foldM _ _ _) as [t|]; [|discriminate]. cbn [bind]. destruct (last_err t); [|discriminate]. cbn [bind].
  destruct (cech_diff_and_lift _ _ _ _ _) as [[B l]|]; [|discriminate]. cbn [bind]. destruct (many B); [discriminate|]. apply set_reps_hom.
Qed.

Lemma foldM_inv {X St} (f : St -> X -> res St) (R : St -> Prop) l : (forall s x s', In x l -> R s -> f s x = Ok s' -> R s') ->
  forall s s', R s -> foldM f l s = Ok s' -> R s'.
Proof.
  induction l as [|x l IH]; intros H s s' Hs E; cbn in E; [injection E as <-; auto|].
  destruct (f s x) as [s1|] eqn:E1; [|discriminate]. cbn in E. apply (IH (fun s x s' Hx => H s x s' (or_intror Hx)) s1 s'); auto. apply (H s x); auto. left; auto.
Qed.

(** ** A module over a zero module is returned as it is, whatever the matrices are. *)
Lemma mph_loop_hom rnd D Bs p d : forall Im_d Hom Im Pre H I Q, mph_loop rnd D Bs p d Im_d Hom Im Pre = Ok (H, I, Q) ->
  exists l li lq, H = l ++ Hom /\ length l = d /\ I = li ++ Im /\ length li = Datatypes.S d /\ Q = lq ++ Pre /\ length lq = d /\ forall e, (e < d)%nat ->
    (0 < b_dim (nth (Datatypes.S e) Bs empty_basis))%nat -> b_dim (nth e Bs empty_basis) = 0%nat -> nth e l empty_basis = nth (Datatypes.S e) Bs empty_basis.
Proof.
  induction d as [|d IH]; intros Im_d Hom Im Pre H I Q E; cbn [mph_loop] in E.
  { injection E as <- <- <-. exists [], [Im_d], []. do 6 (split; [reflexivity|]). intros; lia. }
  destruct (nth_err Bs (Datatypes.S d)) as [B|] eqn:EB; [|discriminate]. cbn [bind] in E.
  destruct (nth_err Bs d) as [B1|] eqn:EB1; [|discriminate]. cbn [bind] in E.
  destruct (nth_err D (Datatypes.S d)) as [M|]; [|discriminate]. cbn [bind] in E.
  destruct (mph_step rnd M B B1 Im_d p) as [[[i h] pre]|] eqn:ES; [|discriminate]. cbn [bind] in E.
  destruct (IH _ _ _ _ _ _ _ E) as (l & li & lq & -> & Ll & -> & Lli & -> & Llq & HH).
  exists (l ++ [h]), (li ++ [Im_d]), (lq ++ [pre]). rewrite <- !app_assoc, !app_length. cbn [length app].
  do 6 (split; [try reflexivity; lia|]). intros e He Hpos Hz. destruct (Nat.eq_dec e d) as [Ee|Ee].
  - subst e. rewrite app_nth2, Ll, Nat.sub_diag by lia. cbn [nth].
    pose proof (nth_err_lt _ _ _ EB) as L1. pose proof (nth_err_lt _ _ _ EB1) as L2.
    rewrite (nth_err_nth Bs _ empty_basis L1) in EB. rewrite (nth_err_nth Bs _ empty_basis L2) in EB1. injection EB as <-. injection EB1 as <-. unfold mph_step in ES.
    destruct (Nat.eqb_spec (b_dim (nth (Datatypes.S d) Bs empty_basis)) 0); [lia|].
    destruct (Nat.eqb_spec (b_dim (nth d Bs empty_basis)) 0); [|lia]. injection ES as _ <- _. reflexivity.
  - rewrite app_nth1 by lia. apply HH; auto. lia.
Qed.

Lemma mph_over_zero rnd D Bs p Hom Im Pre : module_persistence_homology rnd D Bs p = Ok (Hom, Im, Pre) ->
  length Hom = length Bs /\ length Im = length Bs /\ length Pre = length Bs /\ forall d, (Datatypes.S d < length Bs)%nat ->
    (0 < b_dim (nth (Datatypes.S d) Bs empty_basis))%nat -> b_dim (nth d Bs empty_basis) = 0%nat -> nth (Datatypes.S d) Hom empty_basis = nth (Datatypes.S d) Bs empty_basis.
Proof.
  unfold module_persistence_homology. intros E. destruct Bs as [|B0 Bs]; [discriminate|]. set (Bs' := B0 :: Bs) in *.
  destruct (nth_err Bs' (length Bs' - 1)) as [B|]; [|discriminate]. cbn [bind] in E. destruct (empty_over B) as [e|]; [|discriminate]. cbn [bind] in E.
  destruct (mph_loop _ _ _ _ _ _ _ _ _) as [[[H I] Q]|] eqn:EL; [|discriminate]. cbn [bind] in E.
  apply mph_loop_hom in EL. destruct EL as (l & li & lq & -> & Ll & -> & Lli & -> & Llq & HH). rewrite !app_nil_r in E.
  match type of E with bind ?x _ = _ => destruct x as [H0|]; [|discriminate] end. cbn [bind] in E. injection E as <- <- <-.
  assert (length Bs' = Datatypes.S (length Bs)) by reflexivity. cbn [length]. repeat (split; [lia|]). intros d Hd. cbn [nth]. apply HH. lia.
Qed.
