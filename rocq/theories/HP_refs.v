(** * Chains whose references are all generators or none *)
From Coq Require Import QArith.
From Verif Require Import Base ListX SortX Lin Gauss_model Gauss_col Basis_model PH_model Simp_model Spec_Simp Simp_lists LC_model Spec_LC LC_props SS_model HP_model HP_table HP_ext.
From Coq Require Import Sorted Permutation.
Local Open Scope Z_scope.

Local Notation e0 := (LEntry [] LNil).

Definition full (N : nat) (c : chains) : Prop := forall j, le_ref (nth j c e0) = [] \/ le_ref (nth j c e0) = seq 0 N.

Lemma seq_increasing N : increasing (seq 0 N).
Proof.
  unfold increasing. generalize 0%nat. induction N as [|N IH]; intros a; cbn [seq]; constructor; [apply IH|].
  apply Forall_forall. intros x Hx. apply in_seq in Hx. lia.
Qed.

(** The union of such references is such a reference. *)
Lemma nunique_full N (ls : list (list nat)) : (forall l, In l ls -> l = [] \/ l = seq 0 N) -> nunique (concat ls) = [] \/ nunique (concat ls) = seq 0 N.
Proof.
  intros H.
  assert (D : (forall l, In l ls -> l = []) \/ exists l, In l ls /\ l = seq 0 N).
  { induction ls as [|l ls IH]; [left; intros l []|]. destruct (H l (or_introl eq_refl)) as [E|E]; [|right; exists l; split; [left; reflexivity|exact E]].
    destruct IH as [X|(l' & X1 & X2)]; [intros l' Hl'; apply H; right; exact Hl'|left|right; exists l'; split; [right|]; assumption].
    intros l' [<-|Hl']; auto. }
  destruct D as [D|(l & Hl & El)].
  - left. apply increasing_ext; [apply nunique_sorted|constructor|]. intros x. rewrite nunique_In. split; [|intros []]. intros Hx. apply in_concat in Hx. destruct Hx as (l & Hl & Hx). rewrite (D l Hl) in Hx. exact Hx.
  - right. apply increasing_ext; [apply nunique_sorted|apply seq_increasing|]. intros x. rewrite nunique_In. split.
    + intros Hx. apply in_concat in Hx. destruct Hx as (l' & Hl' & Hx). destruct (H l' Hl') as [->| ->]; [destruct Hx|exact Hx].
    + intros Hx. apply in_concat. exists l. split; [exact Hl|]. rewrite El. exact Hx.
Qed.

Lemma full_empty N n : full N (empty_chains n).
Proof. intros j. left. unfold empty_chains. rewrite nth_repeat_e0 || (destruct (nth_in_or_default j (repeat e0 n) e0) as [X|X]; [apply repeat_spec in X|]; rewrite X; reflexivity). Qed.

Lemma full_set N c k ref coord c' : full N c -> (ref = [] \/ ref = seq 0 N) -> add_entry c k ref coord = Ok c' -> full N c'.
Proof.
  intros HF Hr E. unfold add_entry in E. destruct coord as [|w rows]; [destruct (Nat.eqb _ 0); [injection E as <-; exact HF|discriminate]|].
  destruct (Nat.eqb _ _); [|discriminate]. destruct (Nat.ltb_spec k (length c)) as [L|]; [|discriminate]. injection E as <-.
  intros j. rewrite nth_list_set. destruct (Nat.eqb j k && Nat.ltb k (length c)); [exact Hr|apply HF].
Qed.

Lemma full_in N c k e : full N c -> nth_err c k = Ok e -> le_ref e = [] \/ le_ref e = seq 0 N.
Proof. intros H E. pose proof (nth_err_lt _ _ _ E) as L. rewrite (nth_err_nth c k e0) in E by exact L. injection E as <-. apply H. Qed.

Lemma cech_full N S n deg st c : full N st -> cech_diff S n deg st = Ok c -> full N c.
Proof.
  intros HF E. unfold cech_diff in E. destruct (spx_number S n) as [ns|]; [|discriminate]. cbn [bind] in E.
  apply (foldM_inv _ (full N)) in E; [exact E| |apply full_empty]. clear E c. intros c k c' _ Hc E.
  destruct (cech_diff_local S st n deg k) as [[ref coord]|] eqn:EL; [|discriminate]. cbn [bind] in E. apply (full_set _ _ _ _ _ _ Hc) in E; [exact E|]. clear E.
  unfold cech_diff_local in EL. destruct (nth_err (s_ndiff S) n) as [D|]; [|discriminate]. cbn [bind] in EL. destruct (row_err D k) as [cob|]; [|discriminate]. cbn [bind] in EL.
  destruct (Nat.eqb _ 0); [discriminate|]. destruct (mapM _ (nonzero_entries cob)) as [es|] eqn:Ees; [|discriminate]. cbn [bind] in EL.
  assert (X : nunique (concat (map le_ref es)) = [] \/ nunique (concat (map le_ref es)) = seq 0 N).
  { apply nunique_full. intros l Hl. apply in_map_iff in Hl. destruct Hl as (e & <- & He). apply mapM_Ok in Ees. destruct Ees as [Le Hes]. apply (In_nth _ _ e0) in He. destruct He as (i & Hi & <-). rewrite Le in Hi.
    specialize (Hes i (0%nat, 0) e0 Hi). apply (full_in _ _ _ _ HF Hes). }
  destruct (Nat.eqb _ 0); [injection EL as <- _; left; reflexivity|]. destruct (the_local S n k) as [l|]; [|discriminate]. cbn [bind] in EL. destruct (sub_size l deg) as [size|]; [|discriminate]. cbn [bind] in EL.
  destruct (foldM _ _ _) as [rows|]; [|discriminate]. cbn [bind] in EL. injection EL as <- _. exact X.
Qed.

Lemma lift_full N S n deg st R B lf : full N st -> first_page_lift S n deg st R = Ok (B, lf) -> full N lf.
Proof.
  intros HF E. unfold first_page_lift in E. destruct (spx_number S n) as [ns|]; [|discriminate]. cbn [bind] in E. destruct (page_dim1 S n deg) as [total|]; [|discriminate]. cbn [bind] in E.
  destruct (Nat.eqb (length R) 0); [injection E as _ <-; apply full_empty|]. destruct (mapM _ (seq 0 ns)) as [out|]; [|discriminate]. cbn [bind] in E. destruct (cycle_dims S n deg) as [cyc|]; [|discriminate]. cbn [bind] in E.
  destruct (foldM _ _ _) as [[[betas lifts] prev]|] eqn:EF; [|discriminate]. cbn [bind] in E. injection E as _ <-.
  apply (foldM_inv _ (fun st : list vec * chains * nat => full N (snd (fst st)))) in EF; [exact EF| |cbn [fst snd]; apply full_empty].
  clear EF betas lifts prev B. intros [[betas lifts] prev] kn s' _ HL E. cbn [fst snd] in HL.
  destruct (nth_err out (fst kn)) as [o|]; [|discriminate]. cbn [bind] in E. destruct (nth_err st (fst kn)) as [e|] eqn:Ee; [|discriminate]. cbn [bind] in E.
  destruct o as [[g b]|]; [|injection E as <-; exact HL].
  match type of E with bind ?x _ = _ => destruct x as [bs|]; [|discriminate] end. cbn [bind] in E.
  destruct (Nat.ltb 0 (nrows g)); [|cbn [bind] in E; injection E as <-; exact HL].
  destruct (the_local S n (fst kn)) as [l|]; [|discriminate]. cbn [bind] in E. destruct (preim0 l (1 + deg)) as [pre|]; [|discriminate]. cbn [bind] in E. destruct (matmul pre g) as [Q|]; [|discriminate]. cbn [bind] in E.
  destruct (add_entry lifts (fst kn) (le_ref e) (LMat (nrows Q) (cols Q))) as [lifts'|] eqn:EA; [|discriminate]. cbn [bind] in E. injection E as <-. cbn [fst snd].
  apply (full_set _ _ _ _ _ _ HL) in EA; [exact EA|]. apply (full_in _ _ _ _ HF Ee).
Qed.

Lemma add_full N a b c : full N a -> full N b -> add_chains a b = Ok c -> full N c.
Proof.
  intros Ha Hb E. unfold add_chains in E. apply mapM_Ok in E. destruct E as [Lc Hc]. rewrite combine_length, seq_length, Nat.min_id in Lc, Hc.
  intros j. destruct (Nat.lt_ge_cases j (length c)) as [Hj|Hj]; [|rewrite nth_overflow by exact Hj; left; reflexivity].
  specialize (Hc j (0%nat, e0) e0 ltac:(lia)). rewrite combine_nth in Hc by apply seq_length. rewrite seq_nth in Hc by lia. cbn [fst snd Nat.add] in Hc.
  destruct (nth_err b j) as [eb|] eqn:Eb; [|discriminate]. cbn [bind] in Hc. unfold add_local in Hc.
  match type of Hc with bind ?x _ = _ => destruct x as [cc|]; [|discriminate] end. cbn [bind] in Hc.
  assert (X : nunique (le_ref (nth j a e0) ++ le_ref eb) = [] \/ nunique (le_ref (nth j a e0) ++ le_ref eb) = seq 0 N).
  { replace (le_ref (nth j a e0) ++ le_ref eb) with (concat [le_ref (nth j a e0); le_ref eb]) by (cbn; rewrite app_nil_r; reflexivity). apply nunique_full. intros l [<-|[<-|[]]]; [apply Ha|apply (full_in _ _ _ _ Hb Eb)]. }
  unfold mk_entry in Hc. destruct (Nat.eqb _ _) in Hc; [|discriminate]. injection Hc as <-. exact X.
Qed.

Lemma zero_out_full N eb c c' : full N c -> zero_out eb c = Ok c' -> full N c'.
Proof.
  intros HF E. unfold zero_out in E. apply mapM_Ok in E. destruct E as [Lc Hc].
  intros j. destruct (Nat.lt_ge_cases j (length c')) as [Hj|Hj]; [|rewrite nth_overflow by exact Hj; left; reflexivity].
  specialize (Hc j e0 e0 ltac:(lia)). destruct (Nat.ltb 0 _); [|injection Hc as <-; apply HF].
  destruct (mapM _ _) as [bs|]; [|discriminate]. cbn [bind] in Hc. destruct (le_coord _); [discriminate|]. injection Hc as <-. apply HF.
Qed.

Lemma minus_full N p c : full N c -> full N (minus_chains p c).
Proof.
  intros HF j. unfold minus_chains. destruct (Nat.lt_ge_cases j (length c)) as [Hj|Hj]; [|rewrite nth_overflow by (rewrite map_length; exact Hj); left; reflexivity].
  rewrite (nth_map _ c j e0) by exact Hj. apply HF.
Qed.

(** [subtract_beta] on such chains. *)
Lemma seq_eqb N : nat_list_eqb (seq 0 N) (seq 0 N) = true.
Proof.
  unfold nat_list_eqb. rewrite Nat.eqb_refl. cbn [andb]. apply forallb_forall. intros [x y] Hxy. cbn [fst snd]. apply Nat.eqb_eq.
  generalize (seq 0 N) Hxy. intros l. induction l as [|a l IH]; [intros []|]. intros [E|E]; [injection E as <- <-; reflexivity|auto].
Qed.

Lemma ref_none e g j : le_ref e = [] -> at_entry e g j = 0.
Proof. intros E. unfold at_entry. rewrite E. reflexivity. Qed.

Lemma subtract_ok p ws N a b : 0 < p -> good ws a -> good ws b -> full N a -> full N b ->
  exists c, subtract_beta p a b = Ok c /\ good ws c /\ full N c /\ forall k g j, cong p (value c k g j) (value a k g j + value b k g j).
Proof.
  intros Hp Ga Gb Fa Fb. pose proof (good_length _ _ Ga) as La. pose proof (good_length _ _ Gb) as Lb. unfold subtract_beta.
  set (f := fun (i : nat) (e : lentry) => f <- nth_err b i ;;
    if Nat.ltb 0 (length (le_ref e)) && Nat.ltb 0 (length (le_ref f)) then
      if nat_list_eqb (le_ref e) (le_ref f) then
        match le_coord f with
        | LNil => Err ValueError
        | LMat w rows =>
            s <- add_rows (le_coord e) w rows ;;
            Ok (LEntry (le_ref e) (match s with LNil => LNil | LMat w r => LMat w (map (fun v => vmod v p) r) end))
        end
      else Err ValueError
    else if Nat.ltb 0 (length (le_ref f)) then Ok f
    else Ok e).
  destruct (mapM_combine_seq f (fun i e e' => good_entry (nth i ws 0%nat) e' /\ (le_ref e' = [] \/ le_ref e' = seq 0 N) /\ forall g j, cong p (at_entry e' g j) (at_entry e g j + value b i g j)) e0 e0 a) as (c & Ec & Lc & Hc).
  { intros i Hi. unfold f. rewrite (nth_err_nth b i e0) by lia. cbn [bind]. pose proof (good_nth _ _ i Ga ltac:(lia)) as Ge. pose proof (good_nth _ _ i Gb ltac:(lia)) as Gf. unfold value.
    pose proof (Fa i) as Re. pose proof (Fb i) as Rf. set (e := nth i a e0) in *. set (h := nth i b e0) in *. set (w := nth i ws 0%nat) in *.
    destruct (Nat.ltb_spec 0 (length (le_ref e))) as [L1|L1]; cbn [andb].
    2:{ assert (E : le_ref e = []) by (destruct (le_ref e); [reflexivity|cbn in L1; lia]).
        destruct (Nat.ltb_spec 0 (length (le_ref h))) as [L2|L2].
        - eexists. split; [reflexivity|]. split; [exact Gf|]. split; [exact Rf|]. intros g j. rewrite (ref_none e g j E). apply cong_eq. ring.
        - assert (E' : le_ref h = []) by (destruct (le_ref h); [reflexivity|cbn in L2; lia]).
          eexists. split; [reflexivity|]. split; [exact Ge|]. split; [exact Re|]. intros g j. rewrite (ref_none h g j E'). apply cong_eq. ring. }
    destruct (Nat.ltb_spec 0 (length (le_ref h))) as [L2|L2].
    2:{ assert (E' : le_ref h = []) by (destruct (le_ref h); [reflexivity|cbn in L2; lia]).
        eexists. split; [reflexivity|]. split; [exact Ge|]. split; [exact Re|]. intros g j. rewrite (ref_none h g j E'). apply cong_eq. ring. }
    destruct Re as [Re|Re]; [rewrite Re in L1; cbn in L1; lia|]. destruct Rf as [Rf|Rf]; [rewrite Rf in L2; cbn in L2; lia|].
    rewrite Re, Rf, seq_eqb. destruct Ge as [Ge1 Ge2]. destruct Gf as [Gf1 Gf2].
    destruct (le_coord e) as [|we re] eqn:Ece; [rewrite Ge2 in L1; cbn in L1; lia|]. destruct (le_coord h) as [|wh rh] eqn:Ech; [rewrite Gf2 in L2; cbn in L2; lia|].
    destruct Ge2 as (-> & Le & Fe). destruct Gf2 as (-> & Lh & Fh). cbn [add_rows].
    assert (Lr : length rh = length re) by congruence. rewrite Lr, !Nat.eqb_refl. cbn [andb bind].
    eexists. split; [reflexivity|]. rewrite Forall_forall in Fe, Fh.
    assert (Lz : length (zipw vadd re rh) = length re) by (apply Gauss_col.zipw_length; auto).
    assert (Nz : forall t, (t < length re)%nat -> nth t (map (fun v => vmod v p) (zipw vadd re rh)) [] = vmod (vadd (nth t re []) (nth t rh [])) p).
    { intros t Ht. rewrite (nth_map (fun v => vmod v p) (zipw vadd re rh) t []) by (unfold vec in *; lia). rewrite (zipw_nth' vadd [] [] []) by (unfold vec in *; lia). reflexivity. }
    assert (Lw : forall t, (t < length re)%nat -> length (nth t re []) = w /\ length (nth t rh []) = w).
    { intros t Ht. split; [apply Fe|apply Fh]; apply nth_In; unfold vec in *; lia. }
    split; [|split; [right; reflexivity|]].
    - split; [cbn [le_ref]; rewrite <- Re; exact Ge1|]. cbn [le_coord le_ref]. split; [reflexivity|]. split; [rewrite map_length, Lz, <- Re; exact Le|].
      apply Forall_forall. intros r Hr. apply (In_nth _ _ []) in Hr. destruct Hr as (t & Ht & <-). rewrite map_length in Ht. unfold vec in *. rewrite Lz in Ht. rewrite Nz by exact Ht. destruct (Lw t Ht) as [W1 W2].
      unfold vmod. rewrite map_length. unfold vadd. rewrite Gauss_col.zipw_length; [exact W1|congruence].
    - intros g j. unfold at_entry. cbn [le_ref le_coord lrows]. rewrite Re, Rf, Ece, Ech. cbn [lrows]. destruct (find_idx (Nat.eqb g) (seq 0 N)) as [t|] eqn:Et; [|reflexivity].
      destruct (find_idx_Some _ _ _ 0%nat Et) as (Ht & _). rewrite <- Re, <- Le in Ht. unfold vec in *. rewrite Nz by exact Ht. destruct (Lw t Ht) as [W1 W2].
      change (nth j (vmod ?v p) 0) with (vget (vmod v p) j). rewrite Gauss_col.vget_vmod, Gauss_col.vget_vadd by congruence. apply cong_mod. }
  exists c. split; [exact Ec|]. split; [apply good_intro; [lia|intros k Hk; apply Hc; lia]|]. split.
  - intros k. destruct (Nat.lt_ge_cases k (length a)) as [Hk|Hk]; [apply (Hc k Hk)|]. rewrite nth_overflow by lia. left. reflexivity.
  - intros k g j. destruct (Nat.lt_ge_cases k (length a)) as [Hk|Hk]; [apply (Hc k Hk)|]. unfold value. rewrite !nth_overflow by lia. reflexivity.
Qed.
