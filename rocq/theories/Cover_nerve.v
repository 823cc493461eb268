(** * The nerve of the grid of hypercubes *)
From Verif Require Import Base ListX SortX PH_model Simp_model Spec_Simp Simp_lists Simp_props Cover_model Spec_Cover Cover_grid.
From Coq Require Import Sorted Permutation.
Local Open Scope Z_scope.

(** ** Index of a neighbour *)
Fixpoint shift (bw : list (Z * Z)) (idx w : Z) : Z :=
  match bw with [] => idx | (s, d) :: bw' => shift bw' (idx + s * w) (w * d) end.

Definition leaves (x : Z * Z * Z) : bool :=
  let '(p, d, s) := x in ((p =? 0) && (s =? -1)) || ((p =? d - 1) && (s =? 1)).

Lemma neighbour_index_shift fw : forall bw idx w, length fw = length bw ->
  neighbour_index fw bw idx w = if existsb leaves fw then -1 else shift bw idx w.
Proof.
  induction fw as [|[[p d] s] fw IH]; intros [|[s' d'] bw] idx w H; simpl in H; try lia; [reflexivity|].
  cbn [neighbour_index existsb leaves shift]. destruct (_ || _); [reflexivity|]. apply IH. lia.
Qed.

Fixpoint bprod (bw : list (Z * Z)) : Z := match bw with [] => 1 | (_, d) :: bw' => d * bprod bw' end.

Lemma shift_snoc bw s d : forall idx w, shift (bw ++ [(s, d)]) idx w = shift bw idx w + s * (w * bprod bw).
Proof.
  induction bw as [|[s' d'] bw IH]; intros idx w; cbn [app shift bprod]; [ring|]. rewrite IH. ring.
Qed.

Lemma bprod_snoc bw s d : bprod (bw ++ [(s, d)]) = bprod bw * d.
Proof. induction bw as [|[s' d'] bw IH]; cbn [app bprod]; [ring|]. rewrite IH. ring. Qed.

Lemma combine_snoc {A B} (l : list A) (l' : list B) a b : length l = length l' ->
  combine (l ++ [a]) (l' ++ [b]) = combine l l' ++ [(a, b)].
Proof. revert l'. induction l; intros [|y l'] H; simpl in *; try lia; [reflexivity|]. rewrite IHl by lia. reflexivity. Qed.

Lemma shift_index div : forall s idx, length s = length div ->
  shift (combine (rev s) (rev div)) idx 1 = idx + grid_index div s /\ bprod (combine (rev s) (rev div)) = grid_size div.
Proof.
  induction div as [|d div IH]; intros [|x s] idx H; simpl in H; try lia; [simpl; lia|].
  simpl. rewrite combine_snoc by (rewrite !rev_length; lia). rewrite shift_snoc, bprod_snoc.
  destruct (IH s idx ltac:(lia)) as [E1 E2]. rewrite E1, E2. lia.
Qed.

Lemma grid_index_add div : forall a s, length a = length div -> length s = length div ->
  grid_index div (zipw Z.add a s) = grid_index div a + grid_index div s.
Proof.
  induction div as [|d div IH]; intros [|x a] [|y s] H1 H2; simpl in *; try lia. rewrite IH by lia. lia.
Qed.

Definition ones (n : nat) : list Z := repeat 1 n.
Definition zeros (n : nat) : list Z := repeat 0 n.

Lemma stays div a : in_grid div a -> forall s, digits (-1) (ones (length div)) s ->
  existsb leaves (combine (combine a div) s) = false <-> in_grid div (zipw Z.add a s).
Proof.
  unfold ones. induction 1 as [|d x div a Hx Ha IH]; intros s Hs; cbn [length repeat] in Hs;
    inversion Hs as [|? y ? s' Hy Hs' E1 E2]; subst; cbn [combine existsb zipw].
  - split; [constructor|reflexivity].
  - rewrite orb_false_iff, (IH s' Hs'). unfold leaves. split.
    + intros [H1 H2]. constructor; auto. lia.
    + intros H. inversion H; subst. split; auto. lia.
Qed.

Lemma neighbour_index_ok div a s cur : in_grid div a -> digits (-1) (ones (length div)) s ->
  let idx := neighbour_index (combine (combine a div) s) (combine (rev s) (rev div)) cur 1 in
  (in_grid div (zipw Z.add a s) /\ idx = cur + grid_index div s) \/ (~ in_grid div (zipw Z.add a s) /\ idx = -1).
Proof.
  intros Ha Hs idx. pose proof (Forall2_length Ha) as La. pose proof (Forall2_length Hs) as Ls.
  unfold ones in Ls. rewrite repeat_length in Ls.
  unfold idx. rewrite neighbour_index_shift.
  2:{ rewrite !combine_length, !rev_length. lia. }
  destruct (existsb leaves _) eqn:E.
  - right. split; auto. intros H. apply (stays div a Ha s Hs) in H. congruence.
  - left. apply (stays div a Ha s Hs) in E. split; auto. apply shift_index. auto.
Qed.

(** ** The loop over the steps *)
Lemma index_mono lo top : Forall (fun t => lo <= t + 1) top -> forall a b, length a = length top -> length b = length top ->
  Forall2 Z.le a b -> index lo top a <= index lo top b.
Proof.
  induction 1 as [|t top Ht Htop IH]; intros a b Ha Hb H.
  - inversion H; subst; simpl; lia.
  - inversion H as [|x y a' b' Hxy Hab]; subst; [simpl; lia|]. simpl in *. pose proof (size_nonneg _ _ Htop).
    specialize (IH a' b' ltac:(lia) ltac:(lia) Hab). nia.
Qed.

Lemma ones_ok n : Forall (fun t => -1 <= t + 1) (ones n).
Proof. apply Forall_forall. intros x Hx. apply repeat_spec in Hx. lia. Qed.

Lemma zeros_digits n : digits (-1) (ones n) (zeros n).
Proof. unfold ones, zeros. induction n; simpl; constructor; auto. lia. Qed.

Lemma size_ones n : size (-1) (ones n) = 3 ^ Z.of_nat n.
Proof.
  unfold ones. induction n; [reflexivity|]. cbn [repeat size]. rewrite IHn, Nat2Z.inj_succ, Z.pow_succ_r by lia. lia.
Qed.

Lemma negative_step n s : digits (-1) (ones n) s -> index (-1) (ones n) s <= index (-1) (ones n) (zeros n) ->
  existsb (fun x => x <? 0) s = true <-> index (-1) (ones n) s < index (-1) (ones n) (zeros n).
Proof.
  intros Hs Hle. pose proof (Forall2_length Hs) as Ls. unfold ones in Ls at 1. rewrite repeat_length in Ls. split.
  - intros H. destruct (Z.eq_dec (index (-1) (ones n) s) (index (-1) (ones n) (zeros n))) as [E|]; [|lia].
    apply index_inj in E; auto using zeros_digits. subst s. apply existsb_exists in H. destruct H as (x & Hx & H).
    apply repeat_spec in Hx. lia.
  - intros H. destruct (existsb (fun x => x <? 0) s) eqn:E; auto. exfalso.
    assert (Hm : Forall2 Z.le (zeros n) s).
    { clear - E Ls. subst n. unfold zeros. induction s as [|x s IH]; cbn [length repeat]; constructor; simpl in E;
      apply orb_false_iff in E; [lia|apply IH; tauto]. }
    apply (index_mono (-1) (ones n)) in Hm; auto using ones_ok; [lia| |]; unfold ones, zeros; rewrite !repeat_length; auto.
Qed.

Definition edge_of (cur idx : Z) : Z * Z := (Z.min idx cur, Z.max idx cur).

Lemma pair_eqb_eq e f : pair_eqb e f = true <-> e = f.
Proof.
  destruct e, f. unfold pair_eqb. simpl. rewrite andb_true_iff, !Z.eqb_eq. split; [intros [-> ->]; auto|intros E; injection E; auto].
Qed.

Lemma neighbour_edges_ok div a cur : in_grid div a -> cur = grid_index div a -> forall fuel s graph,
  let n := length div in let H := index (-1) (ones n) (zeros n) in
  digits (-1) (ones n) s -> index (-1) (ones n) s <= H -> (Z.to_nat (H - index (-1) (ones n) s) <= fuel)%nat ->
  NoDup graph ->
  exists graph', neighbour_edges fuel div a cur s graph = Ok graph' /\ NoDup graph' /\
   forall e, In e graph' <-> In e graph \/ exists s', digits (-1) (ones n) s' /\ index (-1) (ones n) s <= index (-1) (ones n) s' < H /\
     in_grid div (zipw Z.add a s') /\ e = edge_of cur (cur + grid_index div s').
Proof.
  intros Ha Hcur. induction fuel as [|fuel IH]; intros s graph n H Hs Hle Hf Hnd.
  - pose proof (negative_step n s Hs Hle) as Hneg. fold H in Hneg. simpl.
    destruct (existsb (fun x => x <? 0) s) eqn:E; [apply proj1 in Hneg; specialize (Hneg eq_refl); lia|].
    exists graph. split; auto. split; auto. intros e. split; [auto|]. intros [Hin|(s' & _ & Hr & _)]; auto. lia.
  - pose proof (negative_step n s Hs Hle) as Hneg. fold H in Hneg. simpl.
    destruct (existsb (fun x => x <? 0) s) eqn:E.
    2:{ exists graph. split; auto. split; auto. intros e. split; [auto|]. intros [Hin|(s' & _ & Hr & _)]; auto.
        exfalso. assert (index (-1) (ones n) s < H) by lia. apply Hneg in H0. congruence. }
    apply proj1 in Hneg. specialize (Hneg eq_refl).
    pose proof (Forall2_length Hs) as Ls. unfold ones in Ls at 1. rewrite repeat_length in Ls.
    replace (map (fun _ => 1) s) with (ones n) by (unfold ones; rewrite start_repeat; f_equal; lia).
    destruct (advance_ok _ _ _ Hs) as [Hs' Hi'].
    assert (Hi : index (-1) (ones n) (advance (-1) (ones n) s) = index (-1) (ones n) s + 1).
    { rewrite Hi'. pose proof (index_bound _ _ _ (zeros_digits n)). fold H in H0. lia. }
    set (idx := neighbour_index _ _ _ _). fold (edge_of cur idx).
    set (graph1 := if (0 <=? idx) && negb (existsb (pair_eqb (edge_of cur idx)) graph) then graph ++ [edge_of cur idx] else graph).
    assert (Hidx : (in_grid div (zipw Z.add a s) /\ idx = cur + grid_index div s /\ 0 <= idx) \/ (~ in_grid div (zipw Z.add a s) /\ idx = -1)).
    { destruct (neighbour_index_ok div a s cur Ha Hs) as [[H1 H2]|H2]; [left|right; auto]. split; auto. split; auto.
      fold idx in H2. rewrite H2, Hcur, <- grid_index_add; [apply (grid_index_bound _ _ H1)| |].
      - symmetry. apply (Forall2_length Ha).
      - auto. }
    assert (H1 : NoDup graph1 /\ forall e, In e graph1 <-> In e graph \/ in_grid div (zipw Z.add a s) /\ e = edge_of cur (cur + grid_index div s)).
    { unfold graph1. destruct Hidx as [(G1 & G2 & G3)|[G1 G2]].
      - replace (0 <=? idx) with true by lia. rewrite <- G2. cbn [andb].
        destruct (existsb (pair_eqb (edge_of cur idx)) graph) eqn:Eg; cbn [negb].
        + split; auto. apply existsb_exists in Eg. destruct Eg as (f & Hf' & Ef). apply pair_eqb_eq in Ef. subst f.
          intros e. split; [auto|]. intros [?|[_ ->]]; auto.
        + split.
          * apply NoDup_app_disj; auto; [constructor; [simpl; auto|constructor]|]. intros f Hf1 [<-|[]].
            assert (existsb (pair_eqb (edge_of cur idx)) graph = true); [|congruence].
            apply existsb_exists. exists (edge_of cur idx). split; auto. apply pair_eqb_eq. auto.
          * intros e. rewrite in_app_iff. simpl. intuition.
      - replace (0 <=? idx) with false by lia. simpl. split; auto. intros e. intuition. }
    destruct H1 as [Hnd1 Hin1].
    destruct (IH (advance (-1) (ones n) s) graph1) as (graph' & E' & Hnd' & Hin'); fold n; fold H; auto; try lia.
    exists graph'. split; auto. split; auto. intros e. rewrite Hin', Hin1. fold n H. split.
    + intros [[?|[G1 G2]]|(s' & G1 & G2 & G3)]; auto.
      * right. exists s. split; auto. split; [lia|auto].
      * right. exists s'. split; auto. split; [lia|auto].
    + intros [?|(s' & G1 & G2 & G3 & G4)]; auto. destruct (Z.eq_dec (index (-1) (ones n) s') (index (-1) (ones n) s)) as [Ee|].
      * apply index_inj in Ee; auto. subst s'. auto.
      * right. exists s'. split; auto. split; [lia|auto].
Qed.

Lemma lex_add a : forall s, length s = length a -> lex (zipw Z.add a s) a <-> lex s (zeros (length a)).
Proof.
  unfold zeros. induction a as [|x a IH]; intros [|y s] H; cbn [length repeat zipw lex] in *; try lia.
  rewrite IH by lia. assert (x + y < x <-> y < 0) by lia. assert (x + y = x <-> y = 0) by lia. tauto.
Qed.

Lemma steps_touch div a b : in_grid div a -> in_grid div b -> touch b a ->
  exists s, digits (-1) (ones (length div)) s /\ b = zipw Z.add a s.
Proof.
  unfold ones, touch. intros Ha. revert b. induction Ha as [|d x div a Hx Ha IH]; intros b Hb Ht;
    inversion Hb as [|? y ? b' Hy Hb']; subst; inversion Ht as [|? ? ? ? Hxy Ht']; subst.
  - exists []. split; [constructor|reflexivity].
  - destruct (IH b' Hb' Ht') as (s & Hs & ->). exists (y - x :: s). simpl. split; [constructor; auto; lia|]. f_equal. lia.
Qed.

Lemma touch_steps a : forall s, digits (-1) (ones (length a)) s -> touch (zipw Z.add a s) a.
Proof.
  unfold ones, touch. induction a as [|x a IH]; intros s Hs; cbn [length repeat] in Hs; inversion Hs; subst; simpl; constructor.
  - lia.
  - apply IH. auto.
Qed.

Lemma cube_edges_ok div a graph : in_grid div a -> NoDup graph ->
  exists graph', neighbour_edges (3 ^ length div) div a (grid_index div a) (map (fun _ => -1) div) graph = Ok graph' /\ NoDup graph' /\
   forall e, In e graph' <-> In e graph \/ exists b, in_grid div b /\ touch b a /\ grid_index div b < grid_index div a /\
     e = (grid_index div b, grid_index div a).
Proof.
  intros Ha Hnd. set (n := length div). pose proof (Forall2_length Ha) as La. fold n in La.
  assert (E0 : map (fun _ : Z => -1) div = repeat (-1) (length (ones n))).
  { rewrite start_repeat. f_equal. unfold ones. rewrite repeat_length. reflexivity. }
  assert (Hs0 : digits (-1) (ones n) (map (fun _ => -1) div)).
  { rewrite E0. apply digits_zero. apply Forall_forall. intros t Ht. apply repeat_spec in Ht. lia. }
  assert (Hi0 : index (-1) (ones n) (map (fun _ => -1) div) = 0) by (rewrite E0; apply index_zero).
  pose proof (index_bound _ _ _ (zeros_digits n)) as HH. rewrite size_ones in HH.
  destruct (neighbour_edges_ok div a (grid_index div a) Ha eq_refl (3 ^ length div) (map (fun _ => -1) div) graph)
    as (graph' & E & Hnd' & Hin); fold n; auto.
  - lia.
  - rewrite Hi0. rewrite Z.sub_0_r. apply Nat2Z.inj_le. rewrite Z2Nat.id, Nat2Z.inj_pow by lia. fold n.
    change (Z.of_nat 3) with 3. lia.
  - exists graph'. split; auto. split; auto. intros e. rewrite Hin. fold n. rewrite Hi0. 
    assert (Hlen : forall s, digits (-1) (ones n) s -> length s = length a).
    { intros s Hs. rewrite <- La, <- (Forall2_length Hs). unfold ones. apply repeat_length. }
    split; (intros [?|He]; [auto|right]).
    + destruct He as (s & Hs & Hr & Hg & ->). exists (zipw Z.add a s). split; auto.
      assert (Hlt : grid_index div (zipw Z.add a s) < grid_index div a).
      { apply grid_index_lex; auto. apply lex_add; auto. rewrite <- La. apply (index_lex (-1) (ones n)); auto using zeros_digits. lia. }
      split; [apply touch_steps; rewrite <- La; auto|]. split; auto.
      rewrite <- grid_index_add; auto; [|rewrite Hlen; auto]. unfold edge_of. f_equal; lia.
    + destruct He as (b & Hb & Ht & Hlt & ->). destruct (steps_touch div a b Ha Hb Ht) as (s & Hs & ->). fold n in Hs.
      exists s. split; auto. split; [|split; auto].
      * split; [apply index_bound; auto|]. apply index_lex; auto using zeros_digits.
        rewrite La. apply lex_add; auto. apply (grid_index_lex div); auto.
      * rewrite <- grid_index_add; auto; [|rewrite Hlen; auto]. unfold edge_of. f_equal; lia.
Qed.

Lemma nerve_graph_ok div k : forall a cur graph,
  cur + Z.of_nat k = grid_size div -> ((0 < k)%nat -> in_grid div a /\ grid_index div a = cur) -> NoDup graph ->
  exists graph', nerve_graph_loop k div a cur graph = Ok graph' /\ NoDup graph' /\
   forall e, In e graph' <-> In e graph \/ exists a b, in_grid div a /\ in_grid div b /\ touch b a /\
     cur <= grid_index div a /\ grid_index div b < grid_index div a /\ e = (grid_index div b, grid_index div a).
Proof.
  induction k as [|k IH]; intros a cur graph Hk Ha Hnd; simpl.
  - exists graph. split; auto. split; auto. intros e. split; auto. intros [?|(a' & b & G1 & _ & _ & G2 & _)]; auto.
    apply grid_index_bound in G1. lia.
  - destruct (Ha ltac:(lia)) as [Hg Hi]. destruct (cube_edges_ok div a graph Hg Hnd) as (g1 & E1 & Hnd1 & Hin1).
    rewrite Hi in E1. rewrite E1. cbn [bind].
    destruct (IH (next_hypercube a div) (cur + 1) g1) as (g2 & E2 & Hnd2 & Hin2); auto; [lia| |].
    { intros Hk'. destruct (next_ok _ _ Hg) as [G1 G2]. split; auto. rewrite G2, Hi. lia. }
    exists g2. split; auto. split; auto. intros e. rewrite Hin2, Hin1. split.
    + intros [[?|(b & G1 & G2 & G3 & ->)]|(a' & b & G1 & G2 & G3 & G4 & G5)]; auto.
      * right. exists a, b. repeat split; auto. lia.
      * right. exists a', b. repeat split; auto; lia || apply G5.
    + intros [?|(a' & b & G1 & G2 & G3 & G4 & G5 & ->)]; auto. destruct (Z.eq_dec (grid_index div a') cur) as [E|].
      * assert (a' = a) by (apply (grid_index_inj div); auto; lia). subst a'. left. right. exists b. auto.
      * right. exists a', b. repeat split; auto. lia.
Qed.

(** ** At most [2^dim] pairwise touching hypercubes *)
Lemma touching_count dim : forall P : list (list Z), NoDup P -> (forall a, In a P -> length a = dim) ->
  (forall a b, In a P -> In b P -> touch a b) -> (length P <= 2 ^ dim)%nat.
Proof.
  induction dim as [|dim IH]; intros P Hnd Hl Ht.
  - destruct P as [|a [|b P]]; simpl; try lia. exfalso.
    pose proof (Hl a (or_introl eq_refl)). pose proof (Hl b (or_intror (or_introl eq_refl))).
    destruct a, b; simpl in *; try lia. inversion Hnd. simpl in *. tauto.
  - assert (Hmin : P = [] \/ exists h0, forall a, In a P -> hd 0 a = h0 \/ hd 0 a = h0 + 1).
    { assert (Hm : P = [] \/ exists a0, In a0 P /\ forall a, In a P -> hd 0 a0 <= hd 0 a).
      { clear. induction P as [|b P IHP]; auto. right. destruct IHP as [->|(a0 & Ha0 & Hm)].
        - exists b. split; [simpl; auto|]. intros a [<-|[]]. lia.
        - destruct (Z_le_gt_dec (hd 0 b) (hd 0 a0)).
          + exists b. split; [simpl; auto|]. intros a [<-|Ha]; [lia|]. specialize (Hm a Ha). lia.
          + exists a0. split; [simpl; auto|]. intros a [<-|Ha]; [lia|]. auto. }
      destruct Hm as [?|(a0 & Ha0 & Hm)]; auto. right. exists (hd 0 a0). intros a Ha. specialize (Hm a Ha).
      specialize (Ht a a0 Ha Ha0). pose proof (Hl a Ha). destruct a as [|x a]; simpl in *; try lia.
      inversion Ht; subst. simpl in *. lia. }
    destruct Hmin as [->|(h0 & Hh)]; [simpl; lia|].
    set (f := fun a => hd 0 a =? h0).
    assert (Hpart : forall g : list Z -> bool, (forall a b, In a P -> In b P -> g a = true -> g b = true -> hd 0 a = hd 0 b) ->
       (length (filter g P) <= 2 ^ dim)%nat).
    { intros g Hg. rewrite <- (map_length (@tl Z)). apply IH.
      - apply NoDup_map_on; [apply NoDup_filter; auto|]. intros a b Ha Hb E. apply filter_In in Ha, Hb.
        destruct Ha as [Ha Ga], Hb as [Hb Gb]. specialize (Hg a b Ha Hb Ga Gb). pose proof (Hl a Ha). pose proof (Hl b Hb).
        destruct a, b; simpl in *; try lia. congruence.
      - intros a Ha. apply in_map_iff in Ha. destruct Ha as (b & <- & Hb). apply filter_In in Hb. destruct Hb as [Hb _].
        specialize (Hl b Hb). destruct b; simpl in *; lia.
      - intros a b Ha Hb. apply in_map_iff in Ha, Hb. destruct Ha as (a' & <- & Ha), Hb as (b' & <- & Hb).
        apply filter_In in Ha, Hb. destruct Ha as [Ha _], Hb as [Hb _]. specialize (Ht a' b' Ha Hb). inversion Ht; subst; simpl; auto. }
    assert (E : length P = (length (filter f P) + length (filter (fun a => negb (f a)) P))%nat).
    { clear. induction P; simpl; auto. destruct (f a); simpl; lia. }
    rewrite E. simpl. assert (length (filter f P) <= 2 ^ dim)%nat; [|assert (length (filter (fun a => negb (f a)) P) <= 2 ^ dim)%nat; [|lia]].
    + apply Hpart. unfold f. intros; lia.
    + apply Hpart. unfold f. intros a b Ha Hb G1 G2. destruct (Hh a Ha), (Hh b Hb); lia.
Qed.

Lemma clique_count div s d : Forall (fun d => 0 <= d) div ->
  clique (Z.to_nat (grid_size div)) (adjacent div) d s -> (S d <= 2 ^ length div)%nat.
Proof.
  intros Hd (Hl & Hinc & Hv & Hadj).
  assert (HP : exists P, Forall2 (fun v a => in_grid div a /\ grid_index div a = Z.of_nat v) s P).
  { clear Hl Hinc Hadj. induction s as [|v s IH]; [exists []; constructor|]. destruct IH as (P & HP); [intros; apply Hv; simpl; auto|].
    destruct (grid_index_surj div (Z.of_nat v)) as (a & Ha & E); auto; [specialize (Hv v (or_introl eq_refl)); lia|].
    exists (a :: P). constructor; auto. }
  destruct HP as (P & HP). rewrite <- Hl, (Forall2_length HP).
  assert (HinP : forall a, In a P -> exists v, In v s /\ in_grid div a /\ grid_index div a = Z.of_nat v).
  { clear - HP. induction HP as [|v a s P Hva HP IH]; intros b []; subst.
    - exists v. simpl. tauto.
    - destruct (IH b H) as (w & Hw & ?). exists w. simpl. tauto. }
  apply touching_count.
  - apply increasing_NoDup in Hinc. clear - HP Hinc. induction HP as [|v a s P [Hg Hi] HP IH]; constructor; inversion Hinc; subst; auto.
    intros Hin. assert (exists w, In w s /\ grid_index div a = Z.of_nat w) as (w & Hw & E).
    { clear - HP Hin. induction HP as [|w b s P [Hg Hi] HP IH]; [destruct Hin|]. destruct Hin as [->|Hin].
      - exists w. simpl. auto.
      - destruct (IH Hin) as (w' & ? & ?). exists w'. simpl. auto. }
    assert (w = v) by lia. subst. auto.
  - intros a Ha. destruct (HinP a Ha) as (v & _ & Hg & _). symmetry. apply (Forall2_length Hg).
  - intros a b Ha Hb. destruct (HinP a Ha) as (v & Hv1 & Hg1 & E1). destruct (HinP b Hb) as (w & Hw1 & Hg2 & E2).
    assert (Hrefl : forall a, touch a a) by (clear; intros a; unfold touch; induction a; constructor; auto; lia).
    assert (Hsym : forall a b, touch a b -> touch b a) by (clear; unfold touch; induction 1; constructor; auto; lia).
    destruct (lt_eq_lt_dec v w) as [[Hlt| ->]|Hlt].
    + destruct (Hadj v w Hv1 Hw1 Hlt) as (a' & b' & G1 & G2 & G3 & G4 & G5).
      replace a with a' by (apply (grid_index_inj div); auto; lia). replace b with b' by (apply (grid_index_inj div); auto; lia). auto.
    + replace b with a by (apply (grid_index_inj div); auto; lia). auto.
    + destruct (Hadj w v Hw1 Hv1 Hlt) as (a' & b' & G1 & G2 & G3 & G4 & G5). apply Hsym.
      replace b with a' by (apply (grid_index_inj div); auto; lia). replace a with b' by (apply (grid_index_inj div); auto; lia). auto.
Qed.

Lemma clique_iff n adj adj' d s : (forall u v, (u < v < n)%nat -> adj u v <-> adj' u v) -> clique n adj d s <-> clique n adj' d s.
Proof.
  intros H. unfold clique. split; intros (H1 & H2 & H3 & H4); repeat split; auto; intros u v Hu Hv Huv.
  - apply H; auto.
  - apply H; auto.
Qed.

(** ** The nerve *)
Lemma nerve_ok div : Forall (fun d => 0 <= d) div -> let n := Z.to_nat (grid_size div) in
  exists Cs, nerve_hypercube_cover div = Ok (n, Cs) /\ length Cs = (2 ^ length div)%nat /\
  forall d, (1 <= d <= 2 ^ length div)%nat ->
    NoDup (level n Cs d) /\ forall s, In s (level n Cs d) <-> clique n (adjacent div) d s.
Proof.
  intros Hd n. unfold nerve_hypercube_cover. rewrite number_hypercubes_ok. fold n.
  assert (H0 : 0 <= grid_size div) by (clear n; induction Hd; simpl; nia).
  destruct (nerve_graph_ok div n (map (fun _ => 0) div) 0 []) as (g & E & Hnd & Hin).
  - unfold n. lia.
  - intros Hn. apply start_grid. apply grid_size_pos; auto. lia.
  - constructor.
  - rewrite E. cbn [bind]. set (G := map _ g).
    assert (HinG : forall u v, In (u, v) G <-> (u < v)%nat /\ adjacent div u v).
    { intros u v. unfold G. rewrite in_map_iff. split.
      - intros ([x y] & Exy & Hxy). apply Hin in Hxy. destruct Hxy as [[]|(a & b & G1 & G2 & G3 & G4 & G5 & G6)].
        injection G6 as -> ->. simpl in Exy. injection Exy as <- <-.
        pose proof (grid_index_bound _ _ G1). pose proof (grid_index_bound _ _ G2). split; [lia|].
        exists b, a. repeat split; auto; lia.
      - intros [Huv (b & a & G1 & G2 & G3 & G4 & G5)]. exists (Z.of_nat u, Z.of_nat v). simpl. rewrite !Nat2Z.id. split; auto.
        apply Hin. right. exists a, b. rewrite G4, G5. repeat split; auto; lia. }
    assert (HGn : forall u v, In (u, v) G -> (u < v < n)%nat).
    { intros u v H. apply HinG in H. destruct H as [Huv (b & a & G1 & G2 & G3 & G4 & G5)]. split; auto.
      pose proof (grid_index_bound _ _ G2). unfold n. lia. }
    assert (HndG : NoDup G).
    { apply NoDup_map_on; auto. intros [x y] [x' y'] H1 H2 Ee. apply Hin in H1, H2.
      destruct H1 as [[]|(a & b & G1 & G2 & _ & _ & _ & G6)]. destruct H2 as [[]|(a' & b' & G1' & G2' & _ & _ & _ & G6')].
      injection G6 as -> ->. injection G6' as -> ->. simpl in Ee. injection Ee as E1 E2.
      pose proof (grid_index_bound _ _ G1). pose proof (grid_index_bound _ _ G2).
      pose proof (grid_index_bound _ _ G1'). pose proof (grid_index_bound _ _ G2'). f_equal; lia. }
    assert (Hpow : Z.to_nat (2 ^ Z.of_nat (length div)) = (2 ^ length div)%nat).
    { apply Nat2Z.inj. rewrite Z2Nat.id, Nat2Z.inj_pow by (apply Z.pow_nonneg; lia). reflexivity. }
    destruct (C16_aux G n (2 ^ Z.of_nat (length div)) HndG HGn) as (Cs & E' & Hl & Hlev); [apply Z.pow_nonneg; lia|].
    rewrite Hpow in *. exists Cs. split; auto. split; auto. intros d Hdd. destruct (Hlev d Hdd) as [G1 G2]. split; auto.
    intros s. rewrite G2. apply clique_iff. intros u v Huv. rewrite HinG. split; [tauto|]. intros; split; [lia|auto].
Qed.

Lemma C32_aux : forall div k, Forall (fun d => 1 <= d) div ->
  let pos := Nat.iter k (fun a => next_hypercube a div) (map (fun _ => 0) div) in
  in_grid div pos /\ grid_index div pos = Z.min (Z.of_nat k) (grid_size div - 1).
Proof. intros div k H. apply iter_next. auto. Qed.

Lemma C32_all_aux : forall div a, Forall (fun d => 1 <= d) div -> in_grid div a ->
  exists k, (k < Z.to_nat (grid_size div))%nat /\ Nat.iter k (fun a => next_hypercube a div) (map (fun _ => 0) div) = a /\
  forall k', (k' < Z.to_nat (grid_size div))%nat -> Nat.iter k' (fun a => next_hypercube a div) (map (fun _ => 0) div) = a -> k' = k.
Proof.
  intros div a H Ha. pose proof (grid_index_bound _ _ Ha) as Hb. exists (Z.to_nat (grid_index div a)). split; [lia|].
  destruct (iter_next div (Z.to_nat (grid_index div a)) H) as [H1 H2]. split.
  - apply (grid_index_inj div); auto. cbv zeta in H2. unfold start in H2. rewrite H2. lia.
  - intros k' Hk' E. destruct (iter_next div k' H) as [H3 H4]. cbv zeta in H4. unfold start in H4. rewrite E in H4. lia.
Qed.

Lemma C33_aux : forall div, Forall (fun d => 0 <= d) div -> let n := Z.to_nat (grid_size div) in
  exists Cs, nerve_hypercube_cover div = Ok (n, Cs) /\ NoDup (level n Cs 1) /\
  (forall s, In s (level n Cs 1) -> exists i j, s = [i; j] /\ (i < j < n)%nat) /\
  forall i j, (i < j)%nat -> In [i; j] (level n Cs 1) <-> adjacent div i j.
Proof.
  intros div Hd n. destruct (nerve_ok div Hd) as (Cs & E & Hl & H). fold n in E, H. exists Cs. split; auto.
  destruct (H 1%nat) as [H1 H2]; [pose proof (Nat.pow_nonzero 2 (length div)); lia|]. split; auto. split.
  - intros s Hs. apply H2 in Hs. destruct Hs as (G1 & G2 & G3 & _). destruct s as [|i [|j [|? ?]]]; simpl in G1; try lia.
    exists i, j. split; auto. inversion G2 as [|? ? _ F]; subst. inversion F; subst. split; auto. apply G3. simpl. auto.
  - intros i j Hij. rewrite H2. split.
    + intros (_ & _ & _ & G). apply G; simpl; auto.
    + intros Ha. split; [reflexivity|]. split; [repeat constructor; auto|].
      destruct Ha as (a & b & G1 & G2 & G3 & G4 & G5). pose proof (grid_index_bound _ _ G2). split.
      * intros v [<-|[<-|[]]]; unfold n; lia.
      * intros u v [<-|[<-|[]]] [<-|[<-|[]]] Huv; try lia. exists a, b. auto.
Qed.

Lemma C34_aux : forall div, Forall (fun d => 0 <= d) div -> let n := Z.to_nat (grid_size div) in
  exists Cs, nerve_hypercube_cover div = Ok (n, Cs) /\ length Cs = (2 ^ length div)%nat /\
  (forall d, (1 <= d <= length Cs)%nat ->
    NoDup (level n Cs d) /\ forall s, In s (level n Cs d) <-> clique n (adjacent div) d s) /\
  level n Cs (2 ^ length div) = [] /\ forall d s, clique n (adjacent div) d s -> (d < 2 ^ length div)%nat.
Proof.
  intros div Hd n. destruct (nerve_ok div Hd) as (Cs & E & Hl & H). fold n in E, H. exists Cs. rewrite Hl.
  split; auto. split; auto. split; auto.
  assert (Hc : forall d s, clique n (adjacent div) d s -> (d < 2 ^ length div)%nat) by (intros d s Hs; apply clique_count in Hs; auto).
  split; auto. destruct (H (2 ^ length div)%nat) as [_ H2]; [pose proof (Nat.pow_nonzero 2 (length div)); lia|].
  destruct (level n Cs (2 ^ length div)) as [|s l]; auto. exfalso.
  assert (Hs : clique n (adjacent div) (2 ^ length div) s) by (apply H2; simpl; auto). apply Hc in Hs. lia.
Qed.
