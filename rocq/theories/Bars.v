(** * Barcodes are unique *)
From Verif Require Import Base ListX Lin PH_lin IK_lin Spec_PH Spec_Bars Rips_props.
From Coq Require Import Permutation Znumtheory.
Local Open Scope Z_scope.

(** ** Sums over the selected indices *)
Lemma sel_sum f n (h : nat -> nat -> Z) :
  Zsum (length (filter f (seq 0 n))) (fun t => h t (nth t (filter f (seq 0 n)) 0%nat))
  = Zsum n (fun k => if f k then h (length (filter f (seq 0 k))) k else 0).
Proof.
  induction n as [|n IH]; [reflexivity|]. rewrite seq_S, filter_app. cbn [plus filter]. cbn [Zsum].
  destruct (f n); [|rewrite app_nil_r, IH; cbn; lia].
  rewrite app_length. cbn [length]. rewrite Nat.add_1_r. cbn [Zsum]. rewrite app_nth2, Nat.sub_diag by lia. cbn [nth].
  f_equal. rewrite <- IH. apply Zsum_ext. intros t Ht. rewrite app_nth1 by auto. reflexivity.
Qed.

Lemma sel_count bars r s : length (filter (fun k => spans r s (nth k bars (0, 0))) (seq 0 (length bars))) = count_bars (spans r s) bars.
Proof.
  unfold count_bars. induction bars as [|b bars IH] using rev_ind; [reflexivity|].
  rewrite app_length. cbn [length]. rewrite Nat.add_1_r, seq_S, !filter_app, !app_length. cbn [plus filter].
  rewrite app_nth2, Nat.sub_diag by lia. cbn [nth]. f_equal; [|destruct (spans r s b); reflexivity].
  rewrite <- IH. f_equal. apply filter_ext_in. intros k Hk. apply in_seq in Hk. rewrite app_nth1 by lia. reflexivity.
Qed.

Section Dim.
Context {X : Type}.
Variable p : Z.
Hypothesis Hp : prime p.

Lemma sub_ext (S : (X -> Z) -> Prop) u v : subspace p S -> (forall i, u i = v i) -> S u -> S v.
Proof.
  intros HS E Hu. apply (HS 1%nat (fun _ => 1) (fun _ => u)); auto. intros i. cbn [Zsum]. rewrite <- E. f_equal. ring.
Qed.

Lemma sub_add (S : (X -> Z) -> Prop) u v : subspace p S -> S u -> S v -> S (fun i => u i + v i).
Proof.
  intros HS Hu Hv. apply (HS 2%nat (fun _ => 1) (fun k => if Nat.eqb k 0 then u else v)).
  - intros k _. destruct (Nat.eqb k 0); auto.
  - intros i. cbn [Zsum Nat.eqb]. f_equal. ring.
Qed.

(** Independent vectors are at most as many as generators. *)
Lemma quotient_le (Zs Bs : (X -> Z) -> Prop) n m g h : subspace p Bs ->
  quotient_basis p Zs Bs n g (fun _ => True) -> quotient_basis p Zs Bs m h (fun _ => True) -> (n <= m)%nat.
Proof.
  intros HB (G1 & _ & G3) (_ & H2 & _). destruct (le_lt_dec n m) as [|Hlt]; auto. exfalso.
  assert (HA : exists a : nat -> nat -> Z, forall k, (k < n)%nat -> Bs (fun i => g k i - Zsum m (fun j => a k j * h j i))).
  { clear G3 Hlt. induction n as [|n IH].
    - exists (fun _ _ => 0). intros; lia.
    - destruct IH as [a Ha]; [intros k Hk; apply G1; lia|]. destruct (H2 (g n) (G1 n ltac:(lia) I)) as (c & _ & Hc).
      exists (fun k => if Nat.eqb k n then c else a k). intros k Hk.
      destruct (Nat.eqb_spec k n) as [->|]; auto. apply Ha. lia. }
  destruct HA as [a Ha].
  destruct (kernel_exists p Hp m n (fun i k => a k i) Hlt) as (c & (k & Hk & Hne) & Hker).
  apply Hne. apply (mod_cong0 p Hp). apply (G3 c); auto; [tauto|].
  apply (HB n c (fun k i => g k i - Zsum m (fun j => a k j * h j i))); auto.
  intros i. apply (mod_cong p Hp). rewrite (Zsum_ext n (fun k => c k * (g k i - _)) (fun k => c k * g k i - Zsum m (fun j => c k * a k j * h j i))).
  - rewrite Zsum_sub, Zsum_swap. rewrite (Zsum_cong0 p m (fun j => Zsum n _)); [apply cong_eq; ring|].
    intros j Hj. rewrite Zsum_scale_r. rewrite (Hker j Hj). apply cong_eq. ring.
  - intros l Hl. rewrite Z.mul_sub_distr_l, <- Zsum_scale. f_equal. apply Zsum_ext. intros; ring.
Qed.

Lemma quotient_dim (Zs Bs : (X -> Z) -> Prop) n m g h : subspace p Bs ->
  quotient_basis p Zs Bs n g (fun _ => True) -> quotient_basis p Zs Bs m h (fun _ => True) -> n = m.
Proof. intros HB H1 H2. apply Nat.le_antisymm; eapply quotient_le; eauto. Qed.

(** Keeping only the selected vectors. *)
Lemma quotient_select (Zs Bs : (X -> Z) -> Prop) n g (f : nat -> bool) : subspace p Bs ->
  (forall k, (k < n)%nat -> f k = true -> Zs (g k)) ->
  (forall v, Zs v -> exists c, Bs (fun i => v i - Zsum n (fun k => if f k then c k * g k i else 0))) ->
  (forall c, Bs (fun i => Zsum n (fun k => if f k then c k * g k i else 0)) -> forall k, (k < n)%nat -> f k = true -> c k mod p = 0) ->
  quotient_basis p Zs Bs (length (filter f (seq 0 n))) (fun t => g (nth t (filter f (seq 0 n)) 0%nat)) (fun _ => True).
Proof.
  intros HB H1 H2 H3. set (L := filter f (seq 0 n)).
  assert (HL : forall t, (t < length L)%nat -> (nth t L 0 < n)%nat /\ f (nth t L 0%nat) = true).
  { intros t Ht. assert (X0 : In (nth t L 0%nat) L) by (apply nth_In; auto). apply filter_In in X0. destruct X0 as [X0 X1].
    apply in_seq in X0. split; auto. lia. }
  split; [|split].
  - intros t Ht _. destruct (HL t Ht). auto.
  - intros v Hv. destruct (H2 v Hv) as (c & Hc). exists (fun t => c (nth t L 0%nat)). split; [tauto|].
    apply (sub_ext _ _ _ HB) with (2 := Hc). intros i. f_equal. symmetry.
    apply (sel_sum f n (fun t k => c k * g k i)).
  - intros c _ Hz t Ht.
    set (idx := fun k => length (filter f (seq 0 k))).
    assert (X0 : forall k, (k < n)%nat -> f k = true -> c (idx k) mod p = 0).
    { apply (H3 (fun k => c (idx k))). apply (sub_ext _ _ _ HB) with (2 := Hz). intros i. cbn beta.
      exact (sel_sum f n (fun t k => c t * g k i)). }
    destruct (HL t Ht) as [Y1 Y2]. specialize (X0 _ Y1 Y2).
    assert (E : idx (nth t L 0%nat) = t); [|rewrite E in X0; auto].
    unfold idx, L. clear - Ht. unfold L in Ht. revert t Ht. induction n as [|n' IH]; intros t Ht; [cbn in Ht; lia|].
    rewrite seq_S, filter_app in *. cbn [plus filter] in *. destruct (f n') eqn:En; [|rewrite app_nil_r in *; auto].
    rewrite app_length in Ht. cbn [length] in Ht. destruct (lt_dec t (length (filter f (seq 0 n')))) as [Hl|Hl].
    + rewrite app_nth1 by auto. auto.
    + replace t with (length (filter f (seq 0 n'))) by lia. rewrite app_nth2, Nat.sub_diag by lia. reflexivity.
Qed.

Lemma sub_lc (S : (X -> Z) -> Prop) n c (b : nat -> X -> Z) : subspace p S -> (forall k, (k < n)%nat -> c k = 0 \/ S (b k)) ->
  S (fun i => Zsum n (fun k => c k * b k i)).
Proof.
  intros HS H. assert (H0 : S (fun _ => 0)) by (apply (HS 0%nat (fun _ => 0) (fun _ _ => 0)); [intros; lia|reflexivity]).
  apply (HS n c (fun k i => if c k =? 0 then 0 else b k i)).
  - intros k Hk. destruct (Z.eqb_spec (c k) 0) as [|Hn]; auto. destruct (H k Hk); [contradiction|]. auto.
  - intros i. f_equal. apply Zsum_ext. intros k Hk. destruct (Z.eqb_spec (c k) 0) as [->|]; ring.
Qed.

(** Bars are the barcode as soon as there is a family of which those alive are a basis and which, when a bar ends, is a
    combination of members which are not younger and live longer. *)
Lemma elder_barcode (Zs Bs : Z -> (X -> Z) -> Prop) M bars g : (forall r, r < M -> subspace p (Bs r)) ->
  (forall r s v, r <= s < M -> Bs r v -> Bs s v) ->
  (forall x, In x bars -> fst x < snd x <= M) ->
  (forall r, r < M -> quotient_basis p (Zs r) (Bs r) (length bars) g (fun k => bbirth bars k <= r < bdeath bars k)) ->
  (forall k, (k < length bars)%nat -> bdeath bars k < M -> exists c,
     (forall t, c t <> 0 -> (t < length bars)%nat /\ bbirth bars t <= bbirth bars k /\ bdeath bars k < bdeath bars t) /\
     Bs (bdeath bars k) (fun i => g k i - Zsum (length bars) (fun t => c t * g t i))) ->
  barcode p Zs Bs M bars.
Proof.
  intros HB Hmon Hb Hq Hd. split; auto. intros r s Hrs. set (n := length bars) in *.
  assert (HBs : subspace p (Bs s)) by (apply HB; lia).
  set (f := fun k => spans r s (nth k bars (0, 0))).
  assert (Hf : forall k, f k = true <-> bbirth bars k <= r /\ s < bdeath bars k).
  { intros k. unfold f, spans, bbirth, bdeath. rewrite andb_true_iff, Z.leb_le, Z.ltb_lt. reflexivity. }
  assert (Hold : forall N k, (Z.to_nat (s + 1 - bdeath bars k) <= N)%nat -> (k < n)%nat -> bbirth bars k <= r < bdeath bars k ->
    exists c, (forall t, c t <> 0 -> f t = true) /\ Bs s (fun i => g k i - Zsum n (fun t => c t * g t i))).
  { induction N as [|N IH]; intros k HN Hk Ha.
    all: destruct (Z_lt_le_dec s (bdeath bars k)) as [Hl|Hl];
      [exists (fun t => if Nat.eqb t k then 1 else 0); split; [intros t Ht; cbn beta in Ht; destruct (Nat.eq_dec t k) as [E|E]; [rewrite E; apply Hf; lia|apply Nat.eqb_neq in E; rewrite E in Ht; lia]|];
       apply (HBs 0%nat (fun _ => 0) (fun _ _ => 0)); [intros; lia|]; intros i; cbn [Zsum]; f_equal; rewrite (Zsum_single n k _ Hk) by (intros t Ht Hne; destruct (Nat.eqb_spec t k); [contradiction|ring]); rewrite Nat.eqb_refl; ring|].
    - lia.
    - destruct (Hd k Hk ltac:(lia)) as (c & Hc & Hv).
      destruct (fin_choose (fun _ : nat => 0) n (fun t e => c t <> 0 -> (forall l, e l <> 0 -> f l = true) /\ Bs s (fun i => g t i - Zsum n (fun l => e l * g l i)))) as (e & He).
      { intros t Ht. destruct (Z.eq_dec (c t) 0) as [|Hn]; [exists (fun _ => 0); tauto|]. destruct (Hc t Hn) as (X1 & X2 & X3).
        destruct (IH t) as (e & He); [lia|auto|lia|]. exists e. auto. }
      exists (fun l => Zsum n (fun t => c t * (if c t =? 0 then 0 else e t l))). split.
      + intros l Hl'. destruct (f l) eqn:E; auto. elim Hl'. apply Zsum_0. intros t Ht. destruct (Z.eqb_spec (c t) 0) as [->|Hn]; [ring|].
        destruct (Z.eq_dec (e t l) 0) as [->|Hn']; [ring|]. apply (proj1 (He t Ht Hn)) in Hn'. congruence.
      + apply (sub_ext _ (fun i => (g k i - Zsum n (fun t => c t * g t i)) + Zsum n (fun t => c t * (g t i - Zsum n (fun l => (if c t =? 0 then 0 else e t l) * g l i)))) _ HBs).
        * intros i. rewrite (Zsum_ext n (fun t => c t * (g t i - _)) (fun t => c t * g t i - Zsum n (fun l => c t * (if c t =? 0 then 0 else e t l) * g l i))).
          2:{ intros t Ht. rewrite Z.mul_sub_distr_l, <- Zsum_scale. f_equal. apply Zsum_ext. intros; ring. }
          rewrite Zsum_sub, Zsum_swap.
          rewrite (Zsum_ext n (fun l => Zsum n (fun t => c t * (if c t =? 0 then 0 else e t l)) * g l i) (fun l => Zsum n (fun t => c t * (if c t =? 0 then 0 else e t l) * g l i))); [ring|].
          intros l Hl'. rewrite <- Zsum_scale_r. reflexivity.
        * apply sub_add; auto; [apply (Hmon (bdeath bars k)); auto; lia|]. apply (sub_lc _ n c (fun t i => g t i - Zsum n (fun l => (if c t =? 0 then 0 else e t l) * g l i)) HBs).
          intros t Ht. destruct (Z.eqb_spec (c t) 0) as [|Hn]; [auto|right]. apply (He t Ht Hn). }
  eexists. rewrite <- sel_count. fold n. fold f. apply (quotient_select _ _ _ g); auto.
  - intros k Hk Hfk. apply Hf in Hfk. apply (Hq r); [lia|auto|lia].
  - intros v Hv. destruct (Hq r ltac:(lia)) as (_ & Hs & _). destruct (Hs v Hv) as (c & Hc & Hz). fold n in Hz.
    destruct (fin_choose (fun _ : nat => 0) n (fun t e => c t <> 0 -> (forall l, e l <> 0 -> f l = true) /\ Bs s (fun i => g t i - Zsum n (fun l => e l * g l i)))) as (e & He).
    { intros t Ht. destruct (Z.eq_dec (c t) 0) as [|Hn]; [exists (fun _ => 0); tauto|].
      destruct (Hold _ t (le_n _) Ht) as (e & He); [|exists e; auto].
      destruct (Z_le_gt_dec (bbirth bars t) r); [destruct (Z_lt_le_dec r (bdeath bars t)); auto|]; elim Hn; apply Hc; lia. }
    exists (fun l => Zsum n (fun t => c t * (if c t =? 0 then 0 else e t l))).
    apply (sub_ext _ (fun i => (v i - Zsum n (fun t => c t * g t i)) + Zsum n (fun t => c t * (g t i - Zsum n (fun l => (if c t =? 0 then 0 else e t l) * g l i)))) _ HBs).
    + intros i. rewrite (Zsum_ext n (fun t => c t * (g t i - _)) (fun t => c t * g t i - Zsum n (fun l => c t * (if c t =? 0 then 0 else e t l) * g l i))).
      2:{ intros t Ht. rewrite Z.mul_sub_distr_l, <- Zsum_scale. f_equal. apply Zsum_ext. intros; ring. }
      rewrite Zsum_sub, Zsum_swap.
      rewrite (Zsum_ext n (fun l => if f l then Zsum n (fun t => c t * (if c t =? 0 then 0 else e t l)) * g l i else 0) (fun l => Zsum n (fun t => c t * (if c t =? 0 then 0 else e t l) * g l i))); [ring|].
      intros l Hl'. destruct (f l) eqn:E; [rewrite <- Zsum_scale_r; reflexivity|]. symmetry. apply Zsum_0. intros t Ht.
      destruct (Z.eqb_spec (c t) 0) as [->|Hn]; [ring|].
      destruct (Z.eq_dec (e t l) 0) as [->|Hn']; [ring|]. apply (proj1 (He t Ht Hn)) in Hn'. congruence.
    + apply sub_add; auto; [apply (Hmon r); auto|]. apply (sub_lc _ n c (fun t i => g t i - Zsum n (fun l => (if c t =? 0 then 0 else e t l) * g l i)) HBs).
      intros t Ht. destruct (Z.eqb_spec (c t) 0) as [|Hn]; [auto|right]. apply (He t Ht Hn).
  - intros c Hz k Hk Hfk. destruct (Hq s ltac:(lia)) as (_ & _ & Hi).
    assert (Y : (fun k => if f k then c k else 0) k mod p = 0).
    { apply (Hi (fun k => if f k then c k else 0)); auto.
      - intros l Hl. cbn beta. destruct (f l) eqn:Ef; auto. elim Hl. apply Hf in Ef. lia.
      - apply (sub_ext _ _ _ HBs) with (2 := Hz). intros i. apply Zsum_ext. intros l Hl. cbn beta. destruct (f l); ring. }
    cbn beta in Y. rewrite Hfk in Y. auto.
Qed.

(** A family with bars proves the bars to be the barcode. *)
Lemma persistent_barcode (Zs Bs : Z -> (X -> Z) -> Prop) M bars g : (forall r, r < M -> subspace p (Bs r)) ->
  (forall r s v, r <= s < M -> Bs r v -> Bs s v) ->
  persistent_basis p Zs Bs M bars g -> barcode p Zs Bs M bars.
Proof.
  intros HB Hmon (Hb & Hq & Hd). apply (elder_barcode Zs Bs M bars g); auto. intros k Hk Hl. exists (fun _ => 0). split; [intros t Ht; lia|].
  apply (sub_ext _ (g k) _ (HB _ Hl)); [|apply Hd; auto; lia]. intros i. rewrite Zsum_0 by (intros; ring). ring.
Qed.

(** A filtered quotient has one barcode. *)
Theorem barcode_unique (Zs Bs : Z -> (X -> Z) -> Prop) M b1 b2 : (forall r, r < M -> subspace p (Bs r)) ->
  barcode p Zs Bs M b1 -> barcode p Zs Bs M b2 -> Permutation b1 b2.
Proof.
  intros HB [H1 H2] [H3 H4]. apply (bars_perm M); auto. intros r s Hrs.
  destruct (H2 r s Hrs) as [g Hg]. destruct (H4 r s Hrs) as [h Hh]. apply (quotient_dim _ _ _ _ _ _ (HB s ltac:(lia)) Hg Hh).
Qed.
End Dim.

(** Two filtered quotients have the same barcode when a linear map sends cycles to cycles and boundaries, and no other
    cycles, to boundaries, and reaches every cycle up to a boundary. *)
Lemma barcode_map {X Y} p (Z1 B1 : Z -> (X -> Z) -> Prop) (Z2 B2 : Z -> (Y -> Z) -> Prop) (f : (X -> Z) -> Y -> Z) M bars : prime p ->
  (forall r, r < M -> subspace p (Z1 r)) -> (forall r, r < M -> subspace p (B2 r)) ->
  (forall r s v, r <= s < M -> Z1 r v -> Z1 s v) -> (forall r s v, r <= s < M -> B2 r v -> B2 s v) ->
  (forall n (c : nat -> Z) b i, cong p (f (fun x => Zsum n (fun k => c k * b k x)) i) (Zsum n (fun k => c k * f (b k) i))) ->
  (forall u v, (forall x, cong p (u x) (v x)) -> forall i, cong p (f u i) (f v i)) ->
  (forall r v, r < M -> Z1 r v -> Z2 r (f v)) ->
  (forall r v, r < M -> B1 r v -> B2 r (f v)) ->
  (forall r v, r < M -> Z1 r v -> B2 r (f v) -> B1 r v) ->
  (forall r w, r < M -> Z2 r w -> exists v, Z1 r v /\ B2 r (fun i => w i - f v i)) ->
  barcode p Z1 B1 M bars -> barcode p Z2 B2 M bars.
Proof.
  intros Hp SZ SB MZ MB Hlin Hext HZ HB HR HS [Hb Hq]. split; auto. intros r s Hrs. destruct (Hq r s Hrs) as (g & G1 & G2 & G3).
  set (n := count_bars (spans r s) bars) in *. exists (fun k => f (g k)). split; [|split].
  - intros k Hk _. apply HZ; auto; lia.
  - intros w Hw. destruct (HS r w ltac:(lia) Hw) as (v & Hv & Hwv). destruct (G2 v Hv) as (c & _ & Hc). exists c. split; [tauto|].
    apply (HB s _ ltac:(lia)) in Hc. apply (MB r s _ Hrs) in Hwv.
    apply (SB s ltac:(lia) 2%nat (fun _ => 1) (fun k => if Nat.eqb k 0 then (fun i => w i - f v i) else f (fun i => v i - Zsum n (fun k => c k * g k i)))).
    + intros k _. destruct (Nat.eqb k 0); auto.
    + intros i. apply (mod_cong p Hp). cbn [Zsum Nat.eqb].
      assert (E : cong p (f (fun x => v x - Zsum n (fun k => c k * g k x)) i) (f v i - Zsum n (fun k => c k * f (g k) i))).
      { set (u := fun x => Zsum n (fun k => c k * g k x)).
        set (a := fun k : nat => if Nat.eqb k 0 then 1 else -1). set (b := fun k : nat => if Nat.eqb k 0 then v else u).
        transitivity (f (fun x => Zsum 2 (fun k => a k * b k x)) i); [apply Hext; intros x; apply cong_eq; unfold a, b, u; cbn [Zsum Nat.eqb]; ring|].
        rewrite (Hlin 2%nat a b i). unfold a, b. cbn [Zsum Nat.eqb]. unfold u. rewrite (Hlin n c g i). apply cong_eq. ring. }
      rewrite E. apply cong_eq. ring.
  - intros c _ Hz. apply G3; [tauto|]. apply HR; [lia| |].
    + apply (MZ r s _ Hrs). apply (SZ r ltac:(lia) n c g); auto.
    + apply (SB s ltac:(lia) 1%nat (fun _ => 1) (fun _ i => Zsum n (fun k => c k * f (g k) i))); auto.
      intros i. apply (mod_cong p Hp). rewrite (Hlin n c g). cbn [Zsum]. apply cong_eq. ring.
Qed.

(** The same for families. *)
Lemma pb_map {X Y} p (Z1 B1 : Z -> (X -> Z) -> Prop) (Z2 B2 : Z -> (Y -> Z) -> Prop) (f : (X -> Z) -> Y -> Z) M bars g : prime p ->
  (forall r, r < M -> subspace p (Z1 r)) -> (forall r, r < M -> subspace p (B2 r)) ->
  (forall n (c : nat -> Z) b i, cong p (f (fun x => Zsum n (fun k => c k * b k x)) i) (Zsum n (fun k => c k * f (b k) i))) ->
  (forall u v, (forall x, cong p (u x) (v x)) -> forall i, cong p (f u i) (f v i)) ->
  (forall r v, r < M -> Z1 r v -> Z2 r (f v)) ->
  (forall r v, r < M -> B1 r v -> B2 r (f v)) ->
  (forall r v, r < M -> Z1 r v -> B2 r (f v) -> B1 r v) ->
  (forall r w, r < M -> Z2 r w -> exists v, Z1 r v /\ B2 r (fun i => w i - f v i)) ->
  persistent_basis p Z1 B1 M bars g -> persistent_basis p Z2 B2 M bars (fun k => f (g k)).
Proof.
  intros Hp SZ SB Hlin Hext HZ HB HR HS (Hb & Hq & Hdead). split; auto. split; [|intros r k Hr Hk Hd; apply HB; auto].
  intros r Hr. destruct (Hq r Hr) as (G1 & G2 & G3). set (n := length bars) in *. split; [|split].
  - intros k Hk Ha. apply HZ; auto.
  - intros w Hw. destruct (HS r w Hr Hw) as (v & Hv & Hwv). destruct (G2 v Hv) as (c & Hc0 & Hc). exists c. split; [auto|].
    apply (HB r _ Hr) in Hc.
    apply (SB r Hr 2%nat (fun _ => 1) (fun k => if Nat.eqb k 0 then (fun i => w i - f v i) else f (fun i => v i - Zsum n (fun k => c k * g k i)))).
    + intros k _. destruct (Nat.eqb k 0); auto.
    + intros i. apply (mod_cong p Hp). cbn [Zsum Nat.eqb].
      assert (E : cong p (f (fun x => v x - Zsum n (fun k => c k * g k x)) i) (f v i - Zsum n (fun k => c k * f (g k) i))).
      { set (u := fun x => Zsum n (fun k => c k * g k x)).
        set (a := fun k : nat => if Nat.eqb k 0 then 1 else -1). set (b := fun k : nat => if Nat.eqb k 0 then v else u).
        transitivity (f (fun x => Zsum 2 (fun k => a k * b k x)) i); [apply Hext; intros x; apply cong_eq; unfold a, b, u; cbn [Zsum Nat.eqb]; ring|].
        rewrite (Hlin 2%nat a b i). unfold a, b. cbn [Zsum Nat.eqb]. unfold u. rewrite (Hlin n c g i). apply cong_eq. ring. }
      rewrite E. apply cong_eq. ring.
  - intros c Hc Hz. apply G3; auto. apply HR; auto.
    + apply (sub_lc p); [apply SZ; auto|]. intros k Hk. destruct (Z_le_gt_dec (bbirth bars k) r); [destruct (Z_lt_le_dec r (bdeath bars k))|].
      * right. apply G1; auto.
      * left. apply Hc. lia.
      * left. apply Hc. lia.
    + apply (SB r Hr 1%nat (fun _ => 1) (fun _ i => Zsum n (fun k => c k * f (g k) i))); auto.
      intros i. apply (mod_cong p Hp). rewrite (Hlin n c g). cbn [Zsum]. apply cong_eq. ring.
Qed.

