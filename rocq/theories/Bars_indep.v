(** * The members of a weak family are independent *)
From Verif Require Import Base ListX Lin PH_lin IK_lin Spec_PH Spec_Bars Rips_props Bars MPH_bars Bars_complex Bars_weak Ext_props.
From Coq Require Import Permutation Znumtheory.
Local Open Scope Z_scope.

Section Indep.
Context {X : Type}.
Variables (p : Z) (Zs Bs : Z -> (X -> Z) -> Prop) (M : Z) (bars : list (Z * Z)) (g : nat -> X -> Z).
Hypothesis Hp : prime p.
Hypothesis HB : forall r, r < M -> Spec_Bars.subspace p (Bs r).
Hypothesis Hmon : forall r s v, r <= s < M -> Bs r v -> Bs s v.
Hypothesis HW : weak_basis p Zs Bs M bars g.
Let n := length bars.

(** A member which is born is a combination of members which are alive and not younger. *)
Lemma wb_reduce s : s < M -> forall N k, (Z.to_nat (s + 1 - bdeath bars k) <= N)%nat -> (k < n)%nat -> bbirth bars k <= s ->
  exists c, (forall t, c t <> 0 -> (t < n)%nat /\ bbirth bars t <= bbirth bars k /\ s < bdeath bars t) /\ Bs s (fun i => g k i - Zsum n (fun t => c t * g t i)) /\
    (s < bdeath bars k -> forall t, c t = if Nat.eqb t k then 1 else 0).
Proof.
  intros Hs. destruct HW as (_ & _ & Hd). pose proof (HB s Hs) as HBs. induction N as [|N IH]; intros k HN Hk Ha.
  all: destruct (Z_lt_le_dec s (bdeath bars k)) as [Hl|Hl];
    [exists (fun t => if Nat.eqb t k then 1 else 0); split; [intros t Ht; cbn beta in Ht; destruct (Nat.eq_dec t k) as [E|E]; [rewrite E; split; [exact Hk|lia]|apply Nat.eqb_neq in E; rewrite E in Ht; lia]|]; split; [|reflexivity];
     apply (HBs 0%nat (fun _ => 0) (fun _ _ => 0)); [intros; lia|]; intros i; cbn [Zsum]; f_equal; rewrite (Zsum_single n k _ Hk) by (intros t Ht Hne; destruct (Nat.eqb_spec t k); [contradiction|ring]); rewrite Nat.eqb_refl; ring|].
  - lia.
  - destruct (Hd k Hk ltac:(lia)) as (c & Hc & Hv). fold n in Hc, Hv.
    destruct (fin_choose (fun _ : nat => 0) n (fun t e => c t <> 0 -> (forall l, e l <> 0 -> (l < n)%nat /\ bbirth bars l <= bbirth bars k /\ s < bdeath bars l) /\ Bs s (fun i => g t i - Zsum n (fun l => e l * g l i)))) as (e & He).
    { intros t Ht. destruct (Z.eq_dec (c t) 0) as [|Hn]; [exists (fun _ => 0); tauto|]. destruct (Hc t Hn) as (X1 & X2 & X3).
      destruct (IH t) as (e & He1 & He2 & _); [lia|auto|lia|]. exists e. intros _. split; [|exact He2]. intros l Hl'. destruct (He1 l Hl') as (Y1 & Y2 & Y3). repeat split; auto. lia. }
    exists (fun l => Zsum n (fun t => c t * (if c t =? 0 then 0 else e t l))). split; [|split; [|lia]].
    + intros l Hl'. destruct (existsb (fun t => negb (c t * (if c t =? 0 then 0 else e t l) =? 0)) (seq 0 n)) eqn:E.
      * apply existsb_exists in E. destruct E as (t & Ht & E). apply in_seq in Ht. apply negb_true_iff in E. apply Z.eqb_neq in E. destruct (Z.eqb_spec (c t) 0) as [Hz|Hz]; [lia|].
        apply (proj1 (He t ltac:(lia) Hz)). intros E'. rewrite E' in E. lia.
      * elim Hl'. apply Zsum_0. intros t Ht. destruct (Z.eq_dec (c t * (if c t =? 0 then 0 else e t l)) 0) as [|Hn]; [auto|]. exfalso.
        assert (Y : existsb (fun t => negb (c t * (if c t =? 0 then 0 else e t l) =? 0)) (seq 0 n) = true); [|congruence]. apply existsb_exists. exists t. split; [apply in_seq; lia|]. apply negb_true_iff. apply Z.eqb_neq. exact Hn.
    + apply (sub_ext p _ (fun i => (g k i - Zsum n (fun t => c t * g t i)) + Zsum n (fun t => c t * (g t i - Zsum n (fun l => (if c t =? 0 then 0 else e t l) * g l i)))) _ HBs).
      * intros i. rewrite (Zsum_ext n (fun t => c t * (g t i - _)) (fun t => c t * g t i - Zsum n (fun l => c t * (if c t =? 0 then 0 else e t l) * g l i))).
        2:{ intros t Ht. rewrite Z.mul_sub_distr_l, <- Zsum_scale. f_equal. apply Zsum_ext. intros; ring. }
        rewrite Zsum_sub, Zsum_swap.
        rewrite (Zsum_ext n (fun l => Zsum n (fun t => c t * (if c t =? 0 then 0 else e t l)) * g l i) (fun l => Zsum n (fun t => c t * (if c t =? 0 then 0 else e t l) * g l i))); [ring|].
        intros l Hl'. rewrite <- Zsum_scale_r. reflexivity.
      * apply (sub_add p); auto; [apply (Hmon (bdeath bars k)); auto; lia|]. apply (sub_lc p _ n c (fun t i => g t i - Zsum n (fun l => (if c t =? 0 then 0 else e t l) * g l i)) HBs).
        intros t Ht. destruct (Z.eqb_spec (c t) 0) as [|Hn]; [auto|right]. apply (He t Ht Hn).
Qed.

Theorem wb_indep c : (forall i, cong p (Zsum n (fun k => c k * g k i)) 0) -> forall k, (k < n)%nat -> cong p (c k) 0.
Proof.
  intros Hc. assert (p1 : 0 < p) by (destruct Hp; lia).
  enough (G : forall N k, (Z.to_nat (M - bbirth bars k) <= N)%nat -> (k < n)%nat -> cong p (c k) 0) by (intros k Hk; apply (G _ k (le_n _) Hk)).
  induction N as [|N IH]; intros k HN Hk; pose proof (proj1 HW (nth k bars (0, 0)) (nth_In _ _ Hk)) as Hbar; unfold bbirth in HN; [lia|].
  set (r := bbirth bars k). change (fst (nth k bars (0, 0))) with r in *. change (snd (nth k bars (0, 0))) with (bdeath bars k) in *.
  assert (Hr : r < M) by lia. pose proof (HB r Hr) as HBr. destruct HW as (_ & HQ & _). destruct (HQ r Hr) as (_ & _ & HQ3). fold n in HQ3.
  destruct (fin_choose (fun _ : nat => 0) n (fun j e => bbirth bars j <= r -> (forall t, e t <> 0 -> (t < n)%nat /\ bbirth bars t <= bbirth bars j /\ r < bdeath bars t) /\ Bs r (fun i => g j i - Zsum n (fun t => e t * g t i)) /\
     (r < bdeath bars j -> forall t, e t = if Nat.eqb t j then 1 else 0))) as (e & He).
  { intros j Hj. destruct (Z_le_gt_dec (bbirth bars j) r) as [L|L]; [|exists (fun _ => 0); lia]. destruct (wb_reduce r Hr _ j (le_n _) Hj L) as (e & He). exists e. intros _. exact He. }
  pose (c' := fun j => if bbirth bars j <=? r then c j else 0). pose (f := fun t => Zsum n (fun j => c' j * e j t)).
  assert (F : f k mod p = 0).
  { apply (HQ3 f); auto.
    - intros t Ht. unfold f. apply Zsum_0. intros j Hj. unfold c'. destruct (Z.leb_spec (bbirth bars j) r) as [L|L]; [|ring]. destruct (Z.eq_dec (e j t) 0) as [->|Hn]; [ring|].
      destruct (proj1 (He j Hj L) t Hn) as (_ & A & B). elim Ht. lia.
    - assert (B1 : Bs r (fun i => Zsum n (fun j => c' j * g j i))).
      { apply (subs_zero p Hp _ _ HBr). intros i. transitivity (Zsum n (fun k => c k * g k i)); [|apply Hc]. apply Zsum_cong. intros j Hj. unfold c'. destruct (Z.leb_spec (bbirth bars j) r) as [L|L]; [reflexivity|].
        rewrite (IH j); [apply cong_eq; ring| |exact Hj]. lia. }
      assert (B2 : Bs r (fun i => Zsum n (fun j => c' j * (g j i - Zsum n (fun t => e j t * g t i))))).
      { apply (sub_lc p _ n c' (fun j i => g j i - Zsum n (fun t => e j t * g t i)) HBr). intros j Hj. unfold c'. destruct (Z.leb_spec (bbirth bars j) r) as [L|L]; [right|left; reflexivity]. apply (He j Hj L). }
      refine (sub_ext p _ _ _ HBr _ (subs_sub p _ _ _ HBr B1 B2)). intros i. cbv beta.
      rewrite (Zsum_ext n (fun j => c' j * (g j i - _)) (fun j => c' j * g j i - Zsum n (fun t => c' j * e j t * g t i))).
      2:{ intros j Hj. rewrite Z.mul_sub_distr_l, <- Zsum_scale. f_equal. apply Zsum_ext. intros; ring. }
      rewrite Zsum_sub, Zsum_swap. rewrite (Zsum_ext n (fun t => f t * g t i) (fun t => Zsum n (fun j => c' j * e j t * g t i))); [ring|]. intros t Ht. unfold f. rewrite <- Zsum_scale_r. reflexivity. }
  apply (mod_cong_0 p _ p1) in F. transitivity (f k); [|exact F]. apply cong_eq. symmetry. unfold f. rewrite (Zsum_single n k _ Hk).
  - unfold c'. rewrite Z.leb_refl. destruct (He k Hk ltac:(lia)) as (_ & _ & E). rewrite (E ltac:(lia) k), Nat.eqb_refl. ring.
  - intros j Hj Hne. unfold c'. destruct (Z.leb_spec (bbirth bars j) r) as [L|L]; [|ring]. destruct (He j Hj L) as (A & _ & E). destruct (Z_lt_le_dec r (bdeath bars j)) as [Lj|Lj].
    + rewrite (E Lj k). destruct (Nat.eqb_spec k j); [congruence|ring].
    + destruct (Z.eq_dec (e j k) 0) as [->|Hn]; [ring|]. exfalso. destruct (A k Hn) as (_ & A2 & _). fold r in A2. pose proof (proj1 HW (nth j bars (0, 0)) (nth_In _ _ Hj)) as Hbj. unfold bbirth, bdeath in *. lia.
Qed.
End Indep.
