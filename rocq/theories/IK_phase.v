(** * The two inner loops of [image_kernel] *)
From Verif Require Import Base ListX SortX Lin Gauss_model Gauss_arith Gauss_col Gauss_solve Basis_model PH_model IK_model IK_pivot.
From Coq Require Import Znumtheory Sorting.Sorted.
Local Open Scope Z_scope.

Definition dI : icol := ICol 0 0 [] [] (-2).
Definition dK : kcol := KCol 0 0 [] (-2).
Definition fC (ims : list icol) (j : nat) : fvec := vget (ic_col (nth j ims dI)).
Definition fT (ims : list icol) (j : nat) : fvec := vget (ic_T (nth j ims dI)).
Definition pv (ims : list icol) (j : nat) : Z := ic_piv (nth j ims dI).
Definition fK (ker : list kcol) (k : nat) : fvec := vget (kc_col (nth k ker dK)).
Definition kp (ker : list kcol) (k : nat) : Z := kc_piv (nth k ker dK).
Definition fF (F : mat) (j : nat) : fvec := vget (col F j).

Lemma memi_In x l : memi x l = true <-> exists i, In i l /\ x = Z.of_nat i.
Proof.
  unfold memi. rewrite existsb_exists. split; intros (i & Hi & E); exists i; split; auto; apply Z.eqb_eq in E || apply Z.eqb_eq; lia.
Qed.

Lemma nth_snoc_l {A} (l : list A) x i d : (i < length l)%nat -> nth i (l ++ [x]) d = nth i l d.
Proof. intros H. apply app_nth1. auto. Qed.

Lemma nth_snoc_r {A} (l : list A) x d : nth (length l) (l ++ [x]) d = x.
Proof. rewrite app_nth2, Nat.sub_diag by lia. reflexivity. Qed.

Lemma lc_ext_dom n c (V W : nat -> fvec) i : (forall k, (k < n)%nat -> V k i = W k i) -> lc n c V i = lc n c W i.
Proof. intros H. unfold lc. apply Zsum_ext. intros k Hk. rewrite H; auto. Qed.

Lemma multiply_col (p : Z) F w t i : wf_mat F -> p <> 0 -> (forall k, (ncols F <= k)%nat -> vget t k = 0) ->
  cong p (vget (col (multiply_mod_p F (Mat w [t]) p) 0) i) (lc (ncols F) (vget t) (fF F) i).
Proof.
  intros HF Hp Ht. unfold multiply_mod_p, mmod, mmul. cbn [cols nrows map]. unfold col at 1. cbn [cols nth].
  rewrite vget_vmod, cong_mod. unfold mvmul. destruct (lt_dec i (nrows F)) as [Hi|Hi].
  - rewrite (vget_nth_map _ 0%nat) by (rewrite seq_length; auto). rewrite seq_nth by auto. cbn [plus].
    apply cong_eq. unfold lc. apply Zsum_ext. intros k Hk. unfold fF, get. ring.
  - rewrite vget_out by (rewrite map_length, seq_length; lia). unfold lc. rewrite Zsum_0; [reflexivity|].
    intros k Hk. unfold fF. rewrite (vget_out (col F k)); [ring|]. rewrite wf_col; auto. lia.
Qed.

Lemma multiply_col_length p F w t : length (col (multiply_mod_p F (Mat w [t]) p) 0) = nrows F.
Proof.
  unfold multiply_mod_p, mmod, mmul. cbn [cols nrows map]. unfold col. cbn [cols nth].
  unfold vmod, mvmul. rewrite !map_length, seq_length. reflexivity.
Qed.

Lemma multiply_col_bound p F w t i : 0 < p -> 0 <= vget (col (multiply_mod_p F (Mat w [t]) p) 0) i < p.
Proof.
  intros Hp. unfold multiply_mod_p, mmod, mmul, col. cbn [cols nrows map nth].
  rewrite vget_vmod. apply Z.mod_pos_bound. auto.
Qed.

Lemma multiply_col_nonneg p F w t : 0 < p -> nonneg (col (multiply_mod_p F (Mat w [t]) p) 0).
Proof.
  intros Hp i. unfold multiply_mod_p, mmod, mmul. cbn [cols nrows map]. unfold col at 1. cbn [cols nth].
  rewrite vget_vmod. apply Z.mod_pos_bound. auto.
Qed.

Lemma sorted_snoc l x : StronglySorted lt l -> Forall (fun j => (j < x)%nat) l -> StronglySorted lt (l ++ [x]).
Proof.
  induction l as [|y l IH]; intros Hs H; cbn.
  - constructor; constructor.
  - inversion Hs; subst. inversion H; subst. constructor; auto. apply Forall_app. auto.
Qed.

Section ImPhase.
Variables (p : Z) (F : mat) (actB dyA birA dyB : list nat) (rad : Z) (s cap : nat).
Let m := nrows F.
Let n := ncols F.
Hypothesis Hp : prime p.
Hypothesis HF : wf_mat F.
Hypothesis HactB : StronglySorted lt actB.
Hypothesis HactBm : forall i, In i actB -> (i < m)%nat.

Local Lemma pp : 2 <= p.
Proof. apply prime_ge_2; auto. Qed.

Definition zB (v : fvec) : Prop := veq p (on (mem actB) v) fzero.
Definition pB (v : fvec) (q : nat) : Prop := is_piv p (on (mem actB) v) q.

Definition wf_ic (c : icol) : Prop := length (ic_col c) = m /\ length (ic_T c) = n /\ nonneg (ic_col c) /\ nonneg (ic_T c).

Variable ims : list icol.
Hypothesis Hlen : length ims = n.
Hypothesis Hwf : forall j, (j < n)%nat -> wf_ic (nth j ims dI).
Hypothesis Hstay : forall j, (j < n)%nat -> 0 <= pv ims j -> ~ In (Z.to_nat (pv ims j)) dyB ->
  ~ cong p (fC ims j (Z.to_nat (pv ims j))) 0 -> pB (fC ims j) (Z.to_nat (pv ims j)).
Hypothesis Hdist : forall i j, (i < n)%nat -> (j < n)%nat -> i <> j -> 0 <= pv ims i -> pv ims i <> pv ims j.
Hypothesis Hbir : forall j, (j < n)%nat -> In j birA -> pv ims j = -2.
Hypothesis Hrange : forall j, (j < n)%nat -> pv ims j = -2 \/ pv ims j = -1 \/ 0 <= pv ims j.

(** What happened to column [j]; [pre]/[pret] are the columns before the relative clean-up. *)
Record im_col_ok (acc : list icol) (j : nat) (pre pret : fvec) : Prop := {
  co_wf : wf_ic (nth j acc dI);
  co_birth : ic_birth (nth j acc dI) = ic_birth (nth j ims dI);
  co_comb : exists b : nat -> Z, (forall i, b i <> 0 -> (i < j)%nat /\ 0 <= pv acc i) /\
     (forall i, cong p (pre i) (fC ims j i + lc j b (fC acc) i)) /\
     (forall i, cong p (pret i) (fT ims j i + lc j b (fT acc) i));
  co_case :
    (* alive *)
    (0 <= pv acc j /\ pB (fC acc j) (Z.to_nat (pv acc j)) /\ ic_death (nth j acc dI) = ic_death (nth j ims dI) /\
      (forall i, pre i = fC acc j i) /\ (forall i, pret i = fT acc j i) /\ pv ims j <> -1 /\ (pv ims j = -2 -> In j birA)) \/
    (* untouched *)
    (nth j acc dI = nth j ims dI /\ (pv ims j = -1 \/ pv ims j = -2 /\ ~ In j birA) /\
      (forall i, pre i = fC acc j i) /\ (forall i, pret i = fT acc j i)) \/
    (* dies *)
    (pv acc j = -1 /\ pv ims j <> -1 /\ (pv ims j = -2 -> In j birA) /\ ic_death (nth j acc dI) = rad /\ zB pre /\
      (s = 0%nat -> (forall i, pre i = fC acc j i) /\ (forall i, pret i = fT acc j i)) /\
      ((0 < s)%nat -> (forall i, fT acc j i = if Nat.ltb i s then 0 else pret i) /\
         (forall i, cong p (fC acc j i) (lc n (fT acc j) (fF F) i))))
}.

Definition kers (acc : list icol) (js : list nat) : list kcol :=
  map (fun j => KCol rad 0 (ic_T (nth j acc dI)) (Z.of_nat j)) js.

Record good (acc : list icol) (newp : list Z) (ker0 ker : list kcol) : Prop := {
  g_cols : forall j, (j < length acc)%nat -> exists pre pret, im_col_ok acc j pre pret;
  g_dist : forall i j, (i < length acc)%nat -> (j < length acc)%nat -> i <> j -> 0 <= pv acc i -> pv acc i <> pv acc j;
  g_newp : forall j, (j < length acc)%nat -> 0 <= pv acc j -> In (pv acc j) newp \/ pv acc j = pv ims j;
  g_newp0 : forall x, In x newp -> 0 <= x;
  g_ker : exists js, ker = ker0 ++ kers acc js /\ StronglySorted lt js /\
     (forall j, In j js <-> (j < length acc)%nat /\ s = 0%nat /\ pv acc j = -1 /\ pv ims j <> -1 /\ ~ In j dyA)
}.

Lemma pv_snoc acc c j : (j < length acc)%nat -> pv (acc ++ [c]) j = pv acc j.
Proof. intros H. unfold pv. rewrite nth_snoc_l; auto. Qed.

Lemma col_ok_snoc acc c j pre pret : (j < length acc)%nat -> im_col_ok acc j pre pret -> im_col_ok (acc ++ [c]) j pre pret.
Proof.
  intros Hj [H1 H2 (b & Hb & Hb1 & Hb2) H4]. constructor; rewrite ?nth_snoc_l by auto; auto.
  - exists b. split; [|split].
    + intros i Hi. destruct (Hb i Hi). split; auto. rewrite pv_snoc by lia. auto.
    + intros i. rewrite Hb1. rewrite (lc_ext_dom j b (fC acc) (fC (acc ++ [c]))); [reflexivity|].
      intros k Hk. unfold fC. rewrite nth_snoc_l by lia. reflexivity.
    + intros i. rewrite Hb2. rewrite (lc_ext_dom j b (fT acc) (fT (acc ++ [c]))); [reflexivity|].
      intros k Hk. unfold fT. rewrite nth_snoc_l by lia. reflexivity.
  - unfold fC, fT. rewrite nth_snoc_l by auto. rewrite pv_snoc by auto. exact H4.
Qed.

Lemma kers_snoc acc c js : (forall j, In j js -> (j < length acc)%nat) -> kers (acc ++ [c]) js = kers acc js.
Proof. intros H. unfold kers. apply map_ext_in. intros j Hj. rewrite nth_snoc_l; auto. Qed.

Lemma good_snoc acc newp newp' ker0 ker ker' c :
  good acc newp ker0 ker -> (length acc < n)%nat ->
  (exists pre pret, im_col_ok (acc ++ [c]) (length acc) pre pret) ->
  (0 <= ic_piv c -> forall i, (i < length acc)%nat -> pv acc i <> ic_piv c) ->
  (0 <= ic_piv c -> In (ic_piv c) newp' \/ ic_piv c = pv ims (length acc)) ->
  (forall x, In x newp' -> 0 <= x) -> incl newp newp' ->
  (let j := length acc in
   ker' = ker ++ (if (Nat.eqb s 0 && (ic_piv c =? -1) && negb (pv ims j =? -1) && negb (memn j dyA))%bool
                  then [KCol rad 0 (ic_T c) (Z.of_nat j)] else [])) ->
  good (acc ++ [c]) newp' ker0 ker'.
Proof.
  intros [G1 G2 G3 G4 (js & -> & Hs & Hjs)] Hn Hc Hd Hnp Hnp0 Hincl Hk.
  assert (Hsn : pv (acc ++ [c]) (length acc) = ic_piv c) by (unfold pv; rewrite nth_snoc_r; auto).
  assert (Hl : forall j, (j < length (acc ++ [c]))%nat -> (j < length acc)%nat \/ j = length acc).
  { intros j. rewrite app_length. cbn [length]. lia. }
  constructor; auto.
  - intros j Hj. destruct (Hl j Hj) as [H| ->]; auto. destruct (G1 j H) as (pre & pret & X).
    exists pre, pret. apply col_ok_snoc; auto.
  - intros i j Hi Hj Hij Hpi. destruct (Hl i Hi) as [H| ->]; destruct (Hl j Hj) as [H'| ->].
    + rewrite !pv_snoc in * by auto. apply G2; auto.
    + rewrite Hsn. rewrite pv_snoc in * by auto. destruct (Z_lt_le_dec (ic_piv c) 0); [lia|]. apply Hd; auto.
    + rewrite Hsn in *. rewrite pv_snoc by auto. intros E. apply (Hd Hpi j H'). auto.
    + lia.
  - intros j Hj Hpj. destruct (Hl j Hj) as [H| ->].
    + rewrite pv_snoc in * by auto. destruct (G3 j H Hpj); auto.
    + rewrite Hsn in *. auto.
  - cbv zeta in Hk. set (j0 := length acc) in *.
    exists (js ++ (if (Nat.eqb s 0 && (ic_piv c =? -1) && negb (pv ims j0 =? -1) && negb (memn j0 dyA))%bool then [j0] else [])).
    split; [|split].
    + rewrite Hk. rewrite <- app_assoc. f_equal. unfold kers. rewrite map_app. f_equal.
      * symmetry. apply kers_snoc. intros j Hj. apply Hjs in Hj. tauto.
      * destruct (_ && _); auto. cbn [map]. unfold j0. rewrite nth_snoc_r. reflexivity.
    + destruct (_ && _); [|rewrite app_nil_r; auto].
      assert (Forall (fun j => (j < j0)%nat) js).
      { apply Forall_forall. intros j Hj. apply Hjs in Hj. tauto. }
      apply sorted_snoc; auto.
    + intros j. rewrite in_app_iff, Hjs, app_length. cbn [length]. split.
      * intros [(H & E1 & E2 & E3 & E4)|H].
        -- rewrite pv_snoc by auto. repeat split; auto. lia.
        -- destruct ((_ && _)%bool) eqn:Eb in H; [|destruct H]. destruct H as [<-|[]].
           apply andb_prop in Eb. destruct Eb as [Eb E4]. apply andb_prop in Eb. destruct Eb as [Eb E3].
           apply andb_prop in Eb. destruct Eb as [E1 E2]. rewrite Hsn.
           apply Nat.eqb_eq in E1. apply Z.eqb_eq in E2.
           repeat split; auto; try lia.
           rewrite <- memn_In. destruct (memn j0 dyA); [discriminate|]. discriminate.
      * intros (H & E1 & E2 & E3 & E4). destruct (Hl j) as [H'| ->]; [rewrite app_length; cbn; lia| |].
        -- left. rewrite pv_snoc in E2 by auto. auto.
        -- right. rewrite Hsn in E2. fold j0 in E3, E4. rewrite E1, E2. cbn [Nat.eqb Z.eqb Pos.eqb andb].
           assert (X : (pv ims j0 =? -1) = false) by (apply Z.eqb_neq; auto). rewrite X.
           assert (Y : memn j0 dyA = false). { destruct (memn j0 dyA) eqn:Em; auto. elim E4. apply memn_In; auto. }
           rewrite Y. left; auto.
Qed.

Definition count_alive (l : list icol) : nat := length (filter (fun c => negb (ic_piv c =? -1)) l).

Lemma im_step_good acc newp ker0 ker c todo : good acc newp ker0 ker ->
  (length acc < n)%nat -> nth (length acc) ims dI = c ->
  (length ker + count_alive (c :: todo) <= cap)%nat ->
  exists c' newp' ker', im_step F actB dyA birA dyB rad p s cap false (acc, newp, ker) c = Ok (acc ++ [c'], newp', ker') /\
    good (acc ++ [c']) newp' ker0 ker' /\ (length ker' + count_alive todo <= cap)%nat /\
    (length ker' + count_alive (todo ++ [c']) <= length ker + count_alive (c :: todo))%nat.
Proof.
  intros G Hl Ec Hcap. pose proof pp as H2.
  assert (Hc : wf_ic c) by (rewrite <- Ec; apply Hwf; auto).
  destruct Hc as (Hc1 & Hc2 & Hc3 & Hc4).
  assert (Epv : pv ims (length acc) = ic_piv c) by (unfold pv; rewrite Ec; auto).
  assert (EfC : forall i, fC ims (length acc) i = vget (ic_col c) i) by (intros; unfold fC; rewrite Ec; auto).
  assert (EfT : forall i, fT ims (length acc) i = vget (ic_T c) i) by (intros; unfold fT; rewrite Ec; auto).
  unfold im_step.
  destruct (((0 <=? ic_piv c) && (vget (ic_col c) (Z.to_nat (ic_piv c)) mod p =? 0)) || memi (ic_piv c) dyB
            || memz (ic_piv c) newp || memn (length acc) birA)%bool eqn:Etr.
  - (* triggered *)
    assert (Hne1 : ic_piv c <> -1).
    { intros E. rewrite E in Etr. cbn [Z.leb Z.compare andb orb] in Etr.
      assert (E1 : memi (-1) dyB = false). { destruct (memi (-1) dyB) eqn:X; auto. apply memi_In in X. destruct X as (i & _ & X). lia. }
      assert (E2 : memz (-1) newp = false). { destruct (memz (-1) newp) eqn:X; auto. apply memz_In in X. apply (g_newp0 _ _ _ _ G) in X. lia. }
      rewrite E1, E2 in Etr. cbn [orb] in Etr. apply memn_In in Etr. apply Hbir in Etr; auto. lia. }
    assert (Hbb : ic_piv c = -2 -> In (length acc) birA).
    { intros E. rewrite E in Etr. cbn [Z.leb Z.compare andb orb] in Etr.
      assert (E1 : memi (-2) dyB = false). { destruct (memi (-2) dyB) eqn:X; auto. apply memi_In in X. destruct X as (i & _ & X). lia. }
      assert (E2 : memz (-2) newp = false). { destruct (memz (-2) newp) eqn:X; auto. apply memz_In in X. apply (g_newp0 _ _ _ _ G) in X. lia. }
      rewrite E1, E2 in Etr. cbn [orb] in Etr. apply memn_In in Etr. auto. }
    set (prev := map (fun c => (ic_col c, ic_T c, ic_piv c)) acc).
    assert (Hpl : length prev = length acc) by (unfold prev; apply map_length).
    assert (Hpn : forall k, (k < length acc)%nat -> nth k prev ([], [], 0) = (ic_col (nth k acc dI), ic_T (nth k acc dI), ic_piv (nth k acc dI))).
    { intros k Hk. unfold prev. rewrite (nth_map _ acc k dI) by auto. reflexivity. }
    destruct (pcr_spec p m actB Hp HactB HactBm prev n) with (fuel := pcr_fuel actB p) (r := ic_col c) (t := ic_T c)
      as (r' & t' & piv & b & E1 & L1 & L2 & N1 & N2 & Hb & C1 & C2 & Hfin); auto.
    { apply Forall_forall. intros x Hx. unfold prev in Hx. apply in_map_iff in Hx. destruct Hx as (y & <- & Hy).
      apply In_nth with (d := dI) in Hy. destruct Hy as (k & Hk & <-).
      destruct (g_cols _ _ _ _ G k Hk) as (pre & pret & [(W1 & W2 & W3 & W4) _ _ Wc]).
      unfold pv_ok. split; auto. split; auto. split; auto. intros Hq.
      destruct Wc as [(Q1 & Q2 & _)|[(Q1 & Q2 & _)|(Q1 & _)]].
      - exact Q2.
      - exfalso. fold (pv acc k) in Hq. unfold pv in Hq. rewrite Q1 in Hq. fold (pv ims k) in Hq. lia.
      - unfold pv in Q1. lia. }
    { apply Forall_forall. intros x Hx. unfold prev in Hx. apply in_map_iff in Hx. destruct Hx as (y & <- & Hy).
      apply In_nth with (d := dI) in Hy. destruct Hy as (k & Hk & <-).
      destruct (g_cols _ _ _ _ G k Hk) as (pre & pret & [(W1 & W2 & W3 & W4) _ _ Wc]). auto. }
    { apply (measure_fuel p m); auto. }
    rewrite E1. cbn [bind].
    set (b' := fun i => if Nat.ltb i (length acc) then b i else 0).
    assert (Hcomb : forall c', exists b0 : nat -> Z, (forall i, b0 i <> 0 -> (i < length acc)%nat /\ 0 <= pv (acc ++ [c']) i) /\
       (forall i, cong p (vget r' i) (fC ims (length acc) i + lc (length acc) b0 (fC (acc ++ [c'])) i)) /\
       (forall i, cong p (vget t' i) (fT ims (length acc) i + lc (length acc) b0 (fT (acc ++ [c'])) i))).
    { intros c'. exists b'. split; [|split].
      - intros i Hi. unfold b' in Hi. destruct (Nat.ltb_spec i (length acc)) as [Hi'|]; [|lia]. split; auto.
        rewrite pv_snoc by auto. specialize (Hb i ltac:(lia) Hi). unfold pq in Hb. rewrite Hpn in Hb by auto. exact Hb.
      - intros i. rewrite C1, EfC, Hpl. apply cong_eq. f_equal. unfold lc. apply Zsum_ext. intros k Hk. unfold b'.
        assert (X : Nat.ltb k (length acc) = true) by (apply Nat.ltb_lt; auto). rewrite X.
        unfold pr, fC. rewrite Hpn, nth_snoc_l by auto. reflexivity.
      - intros i. rewrite C2, EfT, Hpl. apply cong_eq. f_equal. unfold lc. apply Zsum_ext. intros k Hk. unfold b'.
        assert (X : Nat.ltb k (length acc) = true) by (apply Nat.ltb_lt; auto). rewrite X.
        unfold pt, fT. rewrite Hpn, nth_snoc_l by auto. reflexivity. }
    destruct Hfin as [[-> Hz]|(q & -> & Hq & Hqa & Hfr)].
    + (* dies *)
      cbn [Z.eqb Pos.eqb negb].
      set (c' := if Nat.ltb 0 s then
         let t'' := map (fun i => if Nat.ltb i s then 0 else vget t' i) (seq 0 (length t')) in
         ICol (ic_birth c) rad (col (multiply_mod_p F (Mat (length t') [t'']) p) 0) t'' (-1)
         else ICol (ic_birth c) rad r' t' (-1)).
      assert (Epc : ic_piv c' = -1) by (unfold c'; destruct (Nat.ltb 0 s); reflexivity).
      set (ker' := ker ++ (if (Nat.eqb s 0 && (ic_piv c' =? -1) && negb (pv ims (length acc) =? -1) && negb (memn (length acc) dyA))%bool
                  then [KCol rad 0 (ic_T c') (Z.of_nat (length acc))] else [])).
      assert (Ecnt : count_alive (c :: todo) = S (count_alive todo)).
      { unfold count_alive. cbn [filter]. destruct (Z.eqb_spec (ic_piv c) (-1)); [lia|]. reflexivity. }
      assert (Ekl : (length ker' <= S (length ker))%nat).
      { unfold ker'. rewrite app_length. match goal with |- context[if ?b then _ else _] => destruct b end; cbn [length]; lia. }
      exists c', newp, ker'. split; [|split; [|split]].
      * assert (EX : (if (negb (memn (length acc) dyA) && true && Nat.eqb s 0)%bool
                     then push cap ker (KCol rad 0 t' (Z.of_nat (length acc))) else Ok ker) = Ok ker').
        { unfold ker'. rewrite Epc. cbn [Z.eqb Pos.eqb negb]. rewrite Epv.
          assert (X : (ic_piv c =? -1) = false) by (apply Z.eqb_neq; auto). rewrite X. cbn [negb].
          rewrite !andb_true_r. rewrite (andb_comm (Nat.eqb s 0)).
          destruct (negb (memn (length acc) dyA) && Nat.eqb s 0)%bool eqn:Eb; [|rewrite app_nil_r; reflexivity].
          apply andb_prop in Eb. destruct Eb as [_ Eb]. apply Nat.eqb_eq in Eb.
          unfold push. destruct (Nat.ltb_spec (length ker) cap) as [|Hge]; [|lia].
          unfold c'. rewrite Eb. cbn [Nat.ltb Nat.leb ic_T]. reflexivity. }
        rewrite EX. cbn [bind]. reflexivity.
      * apply (good_snoc acc newp newp ker0 ker ker' c'); auto.
        -- exists (vget r'), (vget t').
           constructor.
           ++ rewrite nth_snoc_r. unfold c'. destruct (Nat.ltb 0 s).
              ** repeat split; cbn [ic_col ic_T].
                 --- apply multiply_col_length.
                 --- rewrite map_length, seq_length. auto.
                 --- apply multiply_col_nonneg. lia.
                 --- intros i. destruct (lt_dec i (length t')) as [Hi|Hi].
                     +++ rewrite (vget_nth_map _ 0%nat) by (rewrite seq_length; auto). rewrite seq_nth by auto. cbn [plus].
                         destruct (Nat.ltb i s); [lia|apply N2].
                     +++ rewrite vget_out; [lia|]. rewrite map_length, seq_length. lia.
              ** repeat split; auto.
           ++ rewrite nth_snoc_r. rewrite Ec. unfold c'. destruct (Nat.ltb 0 s); reflexivity.
           ++ apply Hcomb.
           ++ right. right. unfold pv at 1. unfold fC, fT. rewrite nth_snoc_r. split; [exact Epc|]. split; [rewrite Epv; auto|].
              split; [intros E; apply Hbb; rewrite <- Epv; auto|].
              split; [unfold c'; destruct (Nat.ltb 0 s); reflexivity|]. split; [exact Hz|]. split.
              ** intros E0. unfold c'. rewrite E0. cbn [Nat.ltb Nat.leb ic_col ic_T]. auto.
              ** intros Hs0. unfold c'. destruct (Nat.ltb_spec 0 s); [|lia]. cbn [ic_T ic_col].
                 set (t'' := map (fun i => if Nat.ltb i s then 0 else vget t' i) (seq 0 (length t'))).
                 split.
                 --- intros i. unfold t''. destruct (lt_dec i (length t')) as [Hi|Hi].
                     +++ rewrite (vget_nth_map _ 0%nat) by (rewrite seq_length; auto). rewrite seq_nth by auto. reflexivity.
                     +++ rewrite !vget_out; [destruct (Nat.ltb i s); reflexivity|lia|rewrite map_length, seq_length; lia].
                 --- intros i. apply multiply_col; auto; [lia|]. intros k Hk. apply vget_out. unfold t''.
                     rewrite map_length, seq_length. fold n in Hk. lia.
        -- rewrite Epc. lia.
        -- rewrite Epc. lia.
        -- apply G.
        -- apply incl_refl.
      * lia.
      * unfold count_alive at 1. rewrite filter_app, app_length. cbn [filter]. rewrite Epc. cbn [Z.eqb Pos.eqb negb length].
        fold (count_alive todo). lia.
    + (* new pivot *)
      assert (Eq : (Z.of_nat q =? -1) = false) by (apply Z.eqb_neq; lia). rewrite Eq. cbn [negb].
      set (c' := ICol (ic_birth c) (ic_death c) r' t' (Z.of_nat q)).
      exists c', (newp ++ [Z.of_nat q]), ker. split; [reflexivity|]. split; [|split].
      * apply (good_snoc acc newp (newp ++ [Z.of_nat q]) ker0 ker ker c'); auto.
        -- exists (vget r'), (vget t'). constructor.
           ++ rewrite nth_snoc_r. repeat split; auto.
           ++ rewrite nth_snoc_r, Ec. reflexivity.
           ++ apply Hcomb.
           ++ left. unfold pv at 1 2, fC, fT. rewrite !nth_snoc_r. cbn [ic_piv ic_col ic_T c' ic_death]. rewrite Nat2Z.id.
              rewrite Epv. split; [lia|]. split; [exact Hq|]. split; [rewrite Ec; reflexivity|].
              repeat (split; [auto|]). auto.
        -- cbn [ic_piv c']. intros _ i Hi. specialize (Hfr i ltac:(lia)). unfold pq in Hfr. rewrite Hpn in Hfr by auto. exact Hfr.
        -- cbn [ic_piv c']. intros _. left. apply in_or_app. right. left. auto.
        -- intros x Hx. apply in_app_or in Hx. destruct Hx as [Hx|[<-|[]]]; [apply (g_newp0 _ _ _ _ G); auto|lia].
        -- intros x Hx. apply in_or_app; auto.
        -- cbn [c' ic_piv]. rewrite Eq, andb_false_r. cbn [andb]. rewrite app_nil_r. reflexivity.
      * unfold count_alive in *. cbn [filter] in Hcap. destruct (negb (ic_piv c =? -1)); cbn [length] in Hcap; lia.
      * unfold count_alive. rewrite filter_app, app_length. cbn [filter c' ic_piv]. rewrite Eq. cbn [negb length].
        destruct (Z.eqb_spec (ic_piv c) (-1)); [lia|]. cbn [negb length]. lia.
  - (* untriggered *)
    apply orb_false_elim in Etr. destruct Etr as [Etr T4]. apply orb_false_elim in Etr. destruct Etr as [Etr T3].
    apply orb_false_elim in Etr. destruct Etr as [T1 T2].
    assert (Hnb : ~ In (length acc) birA). { intros X. apply memn_In in X. congruence. }
    exists c, newp, ker. split; [reflexivity|]. split; [|split].
    + apply (good_snoc acc newp newp ker0 ker ker c); auto.
      * exists (vget (ic_col c)), (vget (ic_T c)). constructor.
        -- rewrite nth_snoc_r. repeat split; auto.
        -- rewrite nth_snoc_r, Ec. reflexivity.
        -- exists (fun _ => 0). split; [intros; lia|]. split; intros i; unfold lc; rewrite Zsum_0 by (intros; ring);
             rewrite ?EfC, ?EfT; apply cong_eq; ring.
        -- destruct (Hrange (length acc) Hl) as [R|[R|R]].
           ++ right. left. unfold fC, fT. rewrite !nth_snoc_r. split; auto.
           ++ right. left. unfold fC, fT. rewrite !nth_snoc_r. split; auto.
           ++ left. unfold pv at 1 2, fC, fT. rewrite !nth_snoc_r. rewrite <- Epv. split; [auto|]. split.
              ** assert (X : pB (fC ims (length acc)) (Z.to_nat (pv ims (length acc)))).
                 { apply Hstay; auto.
                   - intros X. assert (memi (ic_piv c) dyB = true); [|congruence]. apply memi_In.
                     eexists. split; [exact X|]. rewrite Epv in *. lia.
                   - rewrite EfC, Epv. intros X. rewrite Epv in R. destruct (Z.leb_spec 0 (ic_piv c)); [|lia].
                     cbn [andb] in T1. apply Z.eqb_neq in T1. apply T1.
                     apply (proj2 (m0 p m actB Hp HactBm _)); auto. }
                 unfold fC in X. rewrite Ec in X. exact X.
              ** rewrite Ec. split; auto. split; auto. split; auto. split; lia.
      * intros Hpos i Hi E. destruct (g_newp _ _ _ _ G i Hi) as [X|X].
        -- rewrite E. auto.
        -- rewrite E in X. assert (memz (ic_piv c) newp = true); [|congruence]. apply memz_In. auto.
        -- rewrite E in X. apply (Hdist (length acc) i); auto; try lia.
      * apply G.
      * apply incl_refl.
      * cbv zeta. rewrite Epv. destruct (ic_piv c =? -1); cbn [negb]; rewrite ?andb_false_r; cbn [andb]; rewrite app_nil_r; reflexivity.
    + unfold count_alive in *. cbn [filter] in Hcap. destruct (negb (ic_piv c =? -1)); cbn [length] in Hcap; lia.
    + unfold count_alive. rewrite filter_app, app_length. cbn [filter]. destruct (negb (ic_piv c =? -1)); cbn [length]; lia.
Qed.
Lemma count_alive_app a b : count_alive (a ++ b) = (count_alive a + count_alive b)%nat.
Proof. unfold count_alive. rewrite filter_app, app_length. reflexivity. Qed.

Lemma im_phase_gen : forall todo acc newp ker0 ker, good acc newp ker0 ker ->
  (length acc + length todo = n)%nat -> (forall j, (j < length todo)%nat -> nth (length acc + j) ims dI = nth j todo dI) ->
  (length ker + count_alive (acc ++ todo) <= cap)%nat ->
  exists ims' newp' ker',
    foldM (im_step F actB dyA birA dyB rad p s cap false) todo (acc, newp, ker) = Ok (ims', newp', ker') /\
    length ims' = n /\ good ims' newp' ker0 ker' /\ (length ker' + count_alive ims' <= cap)%nat.
Proof.
  induction todo as [|c todo IH]; intros acc newp ker0 ker G Hl Hn Hc.
  - exists acc, newp, ker. rewrite app_nil_r in Hc. cbn [length] in Hl. split; [reflexivity|]. split; [lia|]. auto.
  - cbn [length] in Hl. rewrite count_alive_app in Hc.
    destruct (im_step_good acc newp ker0 ker c todo) as (c' & newp' & ker' & E & G' & _ & Hle); auto.
    { lia. }
    { rewrite <- (Nat.add_0_r (length acc)). rewrite Hn by (cbn; lia). reflexivity. }
    { lia. }
    cbn [foldM]. rewrite E. cbn [bind].
    apply (IH (acc ++ [c']) newp' ker0 ker'); auto.
    + rewrite app_length. cbn [length]. lia.
    + intros j Hj. rewrite app_length. cbn [length]. replace (length acc + 1 + j)%nat with (length acc + S j)%nat by lia.
      rewrite Hn by (cbn [length]; lia). reflexivity.
    + rewrite count_alive_app in Hle. rewrite !count_alive_app. lia.
Qed.

Lemma im_phase ker : (length ker + count_alive ims <= cap)%nat ->
  exists ims' newp' ker',
    foldM (im_step F actB dyA birA dyB rad p s cap false) ims ([], [], ker) = Ok (ims', newp', ker') /\
    length ims' = n /\ good ims' newp' ker ker' /\ (length ker' + count_alive ims' <= cap)%nat.
Proof.
  intros H. apply im_phase_gen; auto. constructor.
  - cbn. intros; lia.
  - cbn. intros; lia.
  - cbn. intros; lia.
  - intros x [].
  - exists []. split; [cbn; rewrite app_nil_r; reflexivity|]. split; [constructor|]. cbn. intros j. split; [intros []|lia].
Qed.
End ImPhase.
