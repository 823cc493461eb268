(** * The second page of a cover with acyclic intersections is the homology of the cloud *)
From Verif Require Import Base ListX SortX Lin Gauss_arith Basis_model SS_model Spec_Simp Simp_lists Simp_diff Spec_PH Spec_Rips Rips_bd Spec_Bars Bars Rips_bars Bars_complex IK_lin
  Spec_SS SS_first Spec_E2 Spec_Cech Spec_Nerve Nerve_bd Nerve_alg.
From Coq Require Import Sorted Permutation Znumtheory.
Local Open Scope Z_scope.

Section Index.
Variables (p : Z) (Dist : list (list Z)) (M : Z) (m : nat) (IN : list (list (list nat))) (n0 : nat) (nerve : list (list (list nat))).
Hypothesis Hp : prime p.
Hypothesis HC : covering (length Dist) n0 nerve IN.
Hypothesis Hfull : full_nerve IN n0 nerve.
Let N := length Dist.
Let U (v : nat) := ins_of IN 0 v.
Let Ts (a : nat) := match a with O => [] | Datatypes.S n => level n0 nerve n end.
Let L (n : nat) := level n0 nerve n.
Let DD := D p n0 U Dist.
Let p1 : 1 < p. Proof. destruct Hp. lia. Qed.
Let neq0 a : a mod p <> 0 <-> ~ cong p a 0.
Proof. rewrite (cong_iff_mod p a 0) by lia. rewrite Z.mod_0_l by lia. reflexivity. Qed.
Let ceq a b : cong p a b <-> a mod p = b mod p.
Proof. apply cong_iff_mod. lia. Qed.

Lemma full_Ts : forall a t q, length t = a -> (0 < a)%nat -> increasing t -> (forall v, In v t -> (v < n0)%nat /\ In q (U v)) -> In t (Ts a).
Proof. intros [|a] t q Hl Ha Ht H; [lia|]. apply (Hfull a t q); auto. Qed.
Lemma L_nodup n : NoDup (L n).
Proof. destruct (cov_simp _ _ _ _ HC) as (_ & H & _). apply H. Qed.
Lemma L_ok n t : In t (L n) -> length t = Datatypes.S n /\ increasing t /\ forall v, In v t -> (v < n0)%nat.
Proof. intros H. destruct (cov_simp _ _ _ _ HC) as (W & _). apply (W n t H). Qed.
Lemma L_nth n k : (k < length (L n))%nat -> In (nth k (L n) []) (L n).
Proof. intros H. apply nth_In, H. Qed.
Lemma L_dim n k : (k < length (L n))%nat -> (n <= length nerve)%nat.
Proof.
  intros H. destruct (le_lt_dec n (length nerve)) as [Hn|Hn]; [exact Hn|]. unfold L, level in H. destruct n as [|n]; [lia|]. rewrite nth_overflow in H by lia. cbn in H. lia.
Qed.
Lemma in_part n k r d s : (k < length (L n))%nat -> rips_in Dist IN n k r d s <-> part_of U Dist (nth k (L n) []) r d s.
Proof.
  intros Hk. pose proof (cov_meet _ _ _ _ HC n k) as HM. unfold rips_in, part_of. split; intros [HR HU]; (split; [exact HR|]).
  - intros v Hv q Hq. apply (HM q (L_dim n k Hk) Hk); [apply HU, Hq|exact Hv].
  - intros q Hq. apply (HM q (L_dim n k Hk) Hk). intros v Hv. apply (HU v Hv q Hq).
Qed.

(** A family over the simplices of dimension [n] of the nerve, by their index and by themselves. *)
Definition same (n : nat) (f : nat * list nat -> Z) (F : list nat * list nat -> Z) : Prop := forall k s, (k < length (L n))%nat -> cong p (f (k, s)) (F (nth k (L n) [], s)).
Definition spread (n : nat) (f : nat * list nat -> Z) (x : list nat * list nat) : Z := on_simplices (L n) (fun k => f (k, snd x)) (fst x).
Definition gather (n : nat) (F : list nat * list nat -> Z) (x : nat * list nat) : Z := if Nat.ltb (fst x) (length (L n)) then F (nth (fst x) (L n) [], snd x) else 0.

Lemma spread_same n f : same n f (spread n f).
Proof. intros k s Hk. unfold spread. cbn [fst snd]. rewrite (on_simplices_nth (L n) (fun k => f (k, s))); [reflexivity|apply L_nodup|exact Hk]. Qed.
Lemma gather_same n F : same n (gather n F) F.
Proof. intros k s Hk. unfold gather. cbn [fst snd]. apply Nat.ltb_lt in Hk. rewrite Hk. reflexivity. Qed.
Lemma chain_D n d r f F : same n f F -> (forall t s, ~ In t (L n) -> cong p (F (t, s)) 0) ->
  (forall k, (k < length (L n))%nat -> s_chain p (rips_in Dist IN n k r) d (fun s => f (k, s))) -> DD (Datatypes.S n) d r F.
Proof.
  intros HS Ho Hc t s Hn. destruct (in_dec (list_eq_dec Nat.eq_dec) t (L n)) as [Ht|Ht]; [|destruct Hn; apply Ho, Ht].
  apply (In_nth _ _ []) in Ht as Hk. destruct Hk as (k & Hk & <-). assert (Hs : f (k, s) mod p <> 0) by (apply neq0; rewrite (HS k s Hk); exact Hn).
  destruct (L_ok n _ Ht) as (A1 & A2 & A3). apply (Hc k Hk s) in Hs. apply in_part in Hs; [|exact Hk]. destruct Hs as [HR HU]. split; [|exact HR]. split; [exact A1|]. split; [exact A2|]. intros v Hv. split; [apply A3, Hv|apply HU, Hv].
Qed.
Lemma spread_out n f t s : ~ In t (L n) -> cong p (spread n f (t, s)) 0.
Proof. intros H. unfold spread. cbn [fst snd]. rewrite on_simplices_out by exact H. reflexivity. Qed.
Lemma D_out n d r F t s : DD (Datatypes.S n) d r F -> ~ In t (L n) -> cong p (F (t, s)) 0.
Proof.
  intros HF Ht. destruct (cong_dec p (F (t, s)) 0) as [H|H]; [exact H|]. destruct Ht. exact (D_Ts p n0 U Dist Ts full_Ts (Datatypes.S n) d r F t s ltac:(lia) HF H).
Qed.
Lemma D_chain n d r f F : same n f F -> DD (Datatypes.S n) d r F -> forall k, (k < length (L n))%nat -> s_chain p (rips_in Dist IN n k r) d (fun s => f (k, s)).
Proof.
  intros HS HF k Hk s Hs. apply neq0 in Hs. destruct (HF (nth k (L n) []) s) as ((_ & _ & C) & HR); [rewrite <- (HS k s Hk); exact Hs|]. apply in_part; [exact Hk|]. split; [exact HR|]. intros v Hv. apply C, Hv.
Qed.

(** The Cech differential. *)
Lemma cech_same n r d f F : same (Datatypes.S n) f F -> DD (Datatypes.S (Datatypes.S n)) d r F -> same n (cech n0 nerve n f) (del n0 F).
Proof.
  intros HS HF k s Hk. unfold cech, del. cbn [fst snd]. fold (L n). apply Nat.ltb_lt in Hk as Hk'. rewrite Hk'. destruct (L_ok n _ (L_nth n k Hk)) as (A1 & A2 & A3). apply incb_ok in A2 as A2'. rewrite A2'.
  transitivity (simplicial_bd n0 (on_simplices (L (Datatypes.S n)) (fun t => f (t, s))) (nth k (L n) [])).
  - rewrite simplicial_bd_sum; [|apply L_nodup|exact A2|intros t Ht; destruct (L_ok _ t Ht) as (B1 & B2 & B3); auto]. apply cong_eq. apply Zsum_ext. intros j _. rewrite coeff_bdc. reflexivity.
  - apply simplicial_bd_cong. intros t. destruct (on_simplices_cases (L (Datatypes.S n)) (fun t => f (t, s)) t (L_nodup _)) as [(i & Hi & <- & E)|[Ho E]]; rewrite E; [apply (HS i s Hi)|].
    symmetry. apply (D_out (Datatypes.S n) d r F t s HF Ho).
Qed.

(** Families of boundaries. *)
Lemma bounds_same n d r f F : same n f F -> DD (Datatypes.S n) d r F ->
  (forall k, (k < length (L n))%nat -> s_bounds p N (rips_in Dist IN n k r) d (fun s => f (k, s))) <-> exists w, DD (Datatypes.S n) (Datatypes.S d) r w /\ forall i, cong p (dd Dist w i) (F i).
Proof.
  intros HS HF. split.
  - intros H. destruct (fin_choose (fun _ : list nat => 0) (length (L n)) (fun k w => s_chain p (rips_in Dist IN n k r) (Datatypes.S d) w /\
      forall t, increasing t -> length t = Datatypes.S d -> simplicial_bd N w t mod p = f (k, t) mod p)) as (W & HW).
    { intros k Hk. destruct (H k Hk) as (_ & w & Hw & E). exists w. auto. }
    set (g := fun x : nat * list nat => W (fst x) (snd x)).
    assert (HD : DD (Datatypes.S n) (Datatypes.S d) r (spread n g)) by (apply (chain_D n (Datatypes.S d) r g); [apply spread_same|apply spread_out|intros k Hk; apply (HW k Hk)]).
    exists (spread n g). split; [exact HD|]. intros [t s]. unfold dd. cbn [fst snd]. fold N.
    assert (HZ : ~ In t (L n) \/ incb s = false \/ length s <> Datatypes.S d -> cong p (F (t, s)) 0).
    { intros Hor. destruct (cong_dec p (F (t, s)) 0) as [Hc|Hc]; [exact Hc|]. destruct Hor as [Hor|[Hor|Hor]]; [apply (D_out n d r); auto| |].
      - destruct (HF _ _ Hc) as [_ [(_ & I1 & _) _]]. apply incb_ok in I1. congruence.
      - destruct (HF _ _ Hc) as [_ [(I1 & _) _]]. congruence. }
    destruct (incb s) eqn:Es; [|symmetry; apply HZ; auto]. apply incb_ok in Es. destruct (in_dec (list_eq_dec Nat.eq_dec) t (L n)) as [Ht|Ht].
    + apply (In_nth _ _ []) in Ht. destruct Ht as (k & Hk & <-). destruct (HW k Hk) as [W1 W2].
      transitivity (simplicial_bd N (W k) s). { apply simplicial_bd_cong. intros u. symmetry. apply (spread_same n g k u Hk). }
      destruct (Nat.eq_dec (length s) (Datatypes.S d)) as [El|El]; [rewrite <- (HS k s Hk); apply ceq, W2; auto|]. rewrite HZ by auto. rewrite bd_sgn. apply Zsum_cong0. intros v _.
      destruct (memn v s) eqn:Ev; [reflexivity|]. apply memn_false in Ev. destruct (cong_dec p (W k (insert_vertex v s)) 0) as [Hc|Hc]; [rewrite Hc; apply cong_eq; ring|].
      apply neq0 in Hc. destruct (W1 _ Hc) as [[(Ll & _) _] _]. rewrite insert_length in Ll by auto. lia.
    + rewrite HZ by auto. rewrite (simplicial_bd_cong p N _ (fun _ => 0)); [rewrite bd_zero; reflexivity|]. intros u. apply spread_out, Ht.
  - intros (w & Hw & E) k Hk. split; [apply (D_chain n d r f F HS HF k Hk)|]. exists (fun s => w (nth k (L n) [], s)). split.
    + intros s Hs. apply neq0 in Hs. destruct (Hw _ _ Hs) as ((_ & _ & C) & HR). apply in_part; [exact Hk|]. split; [exact HR|]. intros v Hv. apply C, Hv.
    + intros t Ht _. apply ceq. rewrite (HS k t Hk), <- (E (nth k (L n) [], t)). unfold dd. cbn [fst snd]. apply incb_ok in Ht. rewrite Ht. reflexivity.
Qed.

Lemma chain_cycle0 n k r c : s_cycle p N (rips_in Dist IN n k r) 0 c <-> s_chain p (rips_in Dist IN n k r) 0 c.
Proof. split; [intros [H _]; exact H|intros H; split; [exact H|lia]]. Qed.

Definition outside (n : nat) (v : nat * list nat -> Z) : Prop := forall k s, (length (L n) <= k)%nat -> v (k, s) mod p = 0.
Lemma cech_cycle_D n r f F : same n f F -> outside n f -> (forall t s, ~ In t (L n) -> cong p (F (t, s)) 0) -> cech_cycle p Dist IN n0 nerve 0 n r f <-> DD (Datatypes.S n) 0 r F.
Proof.
  intros HS Ho HF. split.
  - intros [_ H]. apply (chain_D n 0 r f F HS HF). intros k Hk. apply (H k Hk).
  - intros H. split; [exact Ho|]. intros k Hk. apply chain_cycle0. apply (D_chain n 0 r f F HS H k Hk).
Qed.
Lemma gather_outside n F : outside n (gather n F).
Proof. intros k s Hk. unfold gather. cbn [fst snd]. apply Nat.ltb_ge in Hk. rewrite Hk. apply Z.mod_0_l. lia. Qed.
Lemma cech_outside n f : outside n (cech n0 nerve n f).
Proof. intros k s Hk. unfold cech. cbn [fst snd]. apply Nat.ltb_ge in Hk. unfold L in Hk. rewrite Hk. apply Z.mod_0_l. lia. Qed.

Lemma index_barcode n bars : (0 < n)%nat -> barcode p (e2_cycle p Dist IN n0 nerve 0 n) (e2_bounds p Dist IN n0 nerve 0 n) M bars ->
  barcode p (E2z p n0 U Dist n) (E2b p n0 U Dist n) M bars.
Proof.
  intros Hn. destruct n as [|n]; [lia|]. clear Hn. set (n1 := Datatypes.S n).
  apply (barcode_rel p _ _ _ _ (fun r v V => DD (Datatypes.S n1) 0 r V /\ same n1 v V /\ outside n1 v)).
  - intros r K c b b' u u' Hr H Hu Hu'. split; [|split].
    + apply (D_sub p n0 U Dist M Ts Hp (Datatypes.S n1) 0 r K c b'); [intros k Hk; apply H, Hk|intros i; apply ceq, Hu'].
    + intros k s Hk. rewrite (Hu (k, s)), (Hu' (nth k (L n1) [], s)). apply Zsum_cong. intros j Hj. destruct (H j Hj) as (_ & E & _). rewrite (E k s Hk). reflexivity.
    + intros k s Hk. pose proof (Hu (k, s)) as E. apply ceq in E. rewrite E. rewrite <- (Z.mod_0_l p) by lia. apply ceq. apply Zsum_cong0. intros j Hj. destruct (H j Hj) as (_ & _ & O).
      specialize (O k s Hk). rewrite <- (Z.mod_0_l p) in O by lia. apply ceq in O. rewrite O. apply cong_eq. ring.
  - intros r s u v Hrs (H1 & H2). split; [apply (D_mono p n0 U Dist _ _ r); [lia|exact H1]|exact H2].
  - intros r v Hr [H1 H2]. set (V := spread n1 v). assert (HS : same n1 v V) by apply spread_same.
    assert (HD : DD (Datatypes.S n1) 0 r V) by (apply (cech_cycle_D n1 r v V HS); [exact (proj1 H1)|apply spread_out|exact H1]).
    exists V. split; [split; [exact HD|split; [exact HS|exact (proj1 H1)]]|]. split; [exact HD|].
    destruct H2 as [_ H2]. apply (bounds_same n 0 r (cech n0 nerve n v) (del n0 V)); [apply (cech_same n r 0); [exact HS|exact HD]|apply (D_del p n0 U Dist M Ts Hp), HD|exact H2].
  - intros r V Hr [HD H2]. set (v := gather n1 V). assert (HS : same n1 v V) by apply gather_same. exists v. split; [split; [exact HD|split; [exact HS|apply gather_outside]]|]. split.
    + apply (cech_cycle_D n1 r v V HS); [apply gather_outside|intros t s Ht; apply (D_out n1 0 r); auto|exact HD].
    + split; [apply cech_outside|]. apply (bounds_same n 0 r (cech n0 nerve n v) (del n0 V)); [apply (cech_same n r 0); [exact HS|exact HD]|apply (D_del p n0 U Dist M Ts Hp), HD|exact H2].
  - intros r v V Hr (HD & HS & HO).
    assert (HK : forall w W, same (Datatypes.S n1) w W -> DD (Datatypes.S (Datatypes.S n1)) 0 r W -> same n1 (fun x => v x - cech n0 nerve n1 w x) (fun x => V x - del n0 W x)).
    { intros w W Hw HW k s Hk. rewrite (HS k s Hk), (cech_same n1 r 0 w W Hw HW k s Hk). reflexivity. }
    split.
    + intros (_ & w & Hw & Hb). set (W := spread (Datatypes.S n1) w). assert (HSW : same (Datatypes.S n1) w W) by apply spread_same.
      assert (HW : DD (Datatypes.S (Datatypes.S n1)) 0 r W) by (apply (cech_cycle_D (Datatypes.S n1) r w W HSW); [exact (proj1 Hw)|apply spread_out|exact Hw]). split; [exact HD|].
      assert (HX : DD (Datatypes.S n1) 0 r (fun x => V x - del n0 W x)) by (apply (D_minus p n0 U Dist M Ts Hp); [exact HD|apply (D_del p n0 U Dist M Ts Hp), HW]).
      destruct (proj1 (bounds_same n1 0 r _ _ (HK w W HSW HW) HX)) as (u & Hu & Eu); [exact (proj2 Hb)|]. exists W, u. split; [exact HW|]. split; [exact Hu|]. intros i. rewrite (Eu i). apply cong_eq. ring.
    + intros (_ & W & u & HW & Hu & E). set (w := gather (Datatypes.S n1) W). assert (HSW : same (Datatypes.S n1) w W) by apply gather_same. split.
      * apply (cech_cycle_D n1 r v V HS HO); [intros t s Ht; apply (D_out n1 0 r); auto|exact HD].
      * exists w. split; [apply (cech_cycle_D (Datatypes.S n1) r w W HSW); [apply gather_outside|intros t s Ht; apply (D_out (Datatypes.S n1) 0 r); auto|exact HW]|].
        assert (HX : DD (Datatypes.S n1) 0 r (fun x => V x - del n0 W x)) by (apply (D_minus p n0 U Dist M Ts Hp); [exact HD|apply (D_del p n0 U Dist M Ts Hp), HW]). split.
        -- intros k s Hk. pose proof (HO k s Hk) as H1. pose proof (cech_outside n1 w k s Hk) as H2. rewrite Zminus_mod, H1, H2. apply Z.mod_0_l. lia.
        -- apply (bounds_same n1 0 r _ _ (HK w W HSW HW) HX). exists u. split; [exact Hu|]. intros i. rewrite (E i). apply cong_eq. ring.
Qed.
End Index.

(** With acyclic intersections and a nerve which sees all of them, the place [(n, 0)] of the second page has the bars of the cloud in degree [n]. *)
Theorem acyclic_e2 argsort Dist max_r max_dim p IN n0 nerve n bars : mv_input argsort Dist max_r max_dim p IN n0 nerve -> full_nerve IN n0 nerve -> acyclic_cover p Dist max_r max_dim IN n0 nerve ->
  (forall d, (d <= Z.to_nat max_dim)%nat -> fine Dist max_r IN n0 d) -> (0 < n < Z.to_nat max_dim)%nat ->
  barcode p (e2_cycle p Dist IN n0 nerve 0 n) (e2_bounds p Dist IN n0 nerve 0 n) max_r bars ->
  barcode p (fun r => s_cycle p (length Dist) (fun d => rips Dist d r) n) (fun r => s_bounds p (length Dist) (fun d => rips Dist d r) n) max_r bars.
Proof.
  intros HI Hfull Hac Hfine Hn H. pose proof (mv_prime _ _ _ _ _ _ _ _ HI) as Hp. pose proof (mv_cover _ _ _ _ _ _ _ _ HI) as HC.
  apply (nerve_barcode p n0 (fun v => ins_of IN 0 v) Dist max_r (Z.to_nat max_dim) (fun a => match a with O => [] | Datatypes.S n => level n0 nerve n end) Hp); [| | |exact Hn|].
  - intros d r s Hd Hr HR. apply (Hfine d Hd s). destruct HR as [(L & I1 & B & A) _]. split; [exact L|]. split; [exact I1|]. split; [exact B|]. intros u v Hu Hv Huv. unfold near. specialize (A u v Hu Hv Huv). cbv beta in A. lia.
  - intros [|a] t q Hl Ha Ht HH; [lia|]. apply (Hfull a t q); auto.
  - intros [|a] t d r c Ha Ht Hd Hr Hc; [lia|]. apply (In_nth _ _ []) in Ht. destruct Ht as (k & Hk & <-).
    assert (Hpr : prime p) by exact Hp. assert (p1 : 1 < p) by (destruct Hp; lia).
    pose proof (fun e s => in_part p Dist max_r IN n0 nerve Hp HC a k r e s Hk) as HP.
    apply (s_bounds_mono p (length Dist) (rips_in Dist IN a k r)); [intros e s; apply HP|]. apply (Hac a k d r c Hk Hd Hr).
    apply (s_cycle_mono p (length Dist) (part_of (fun v => ins_of IN 0 v) Dist (nth k (level n0 nerve a) []) r)); [intros e s; apply HP|exact Hc].
  - apply index_barcode with (nerve := nerve); auto. lia.
Qed.
