(** * The barcode of the Rips filtration *)
From Verif Require Import Base ListX Lin PH_lin Basis_model PH_model Simp_model Spec_Simp Simp_props Spec_PH Spec_Rips PH_props Rips_bd Rips_chain Rips_props
  Spec_Bars Bars.
From Coq Require Import Permutation Znumtheory.
Local Open Scope Z_scope.

Lemma simplicial_bd_lin p n N c b v t : (forall s, cong p (v s) (Zsum N (fun k => c k * b k s))) ->
  cong p (simplicial_bd n v t) (Zsum N (fun k => c k * simplicial_bd n (b k) t)).
Proof.
  intros H. rewrite (simplicial_bd_cong p n v _ t H). apply cong_eq. unfold simplicial_bd.
  rewrite (Zsum_ext N _ (fun k => Zsum n (fun u => c k * (if memn u t then 0 else (-1) ^ Z.of_nat (length (filter (fun x => Nat.ltb x u) t)) * b k (insert_vertex u t)))))
    by (intros k _; rewrite Zsum_scale; reflexivity).
  rewrite Zsum_swap. apply Zsum_ext. intros u _. destruct (memn u t).
  - rewrite Zsum_0; [reflexivity|]. intros; ring.
  - rewrite <- Zsum_scale. apply Zsum_ext. intros k _. ring.
Qed.

Section Spaces.
Variables (p : Z) (n : nat).
Hypothesis Hp : 1 < p.

Lemma all_zero N (f : nat -> Z) : (forall k, (k < N)%nat -> cong p (f k) 0) \/ exists k, (k < N)%nat /\ ~ cong p (f k) 0.
Proof.
  induction N as [|N [IH|(k & Hk & H)]]; [left; intros; lia| |right; exists k; split; auto].
  destruct (cong_dec p (f N) 0) as [H|H]; [left|right; exists N; split; auto].
  intros k Hk. destruct (Nat.eq_dec k N) as [->|]; auto. apply IH. lia.
Qed.

Lemma s_chain_sub K d : subspace p (s_chain p K d).
Proof.
  intros N c b v Hb E s Hs. rewrite E in Hs. destruct (all_zero N (fun k => b k s)) as [Hz|(k & Hk & Hn)].
  - exfalso. apply Hs. apply z_iff; auto. apply Zsum_cong0. intros k Hk. rewrite (Hz k Hk), Z.mul_0_r. reflexivity.
  - apply (Hb k Hk s). apply nz_iff; auto.
Qed.

Lemma s_cycle_sub K d : subspace p (s_cycle p n K d).
Proof.
  intros N c b v Hb E. split; [apply (s_chain_sub K d N c b); auto; intros; apply Hb; auto|]. intros Hd t Ht Hl.
  apply z_iff; auto. rewrite (simplicial_bd_lin p n N c b v t) by (intros s; apply cong_iff_mod; auto; lia).
  apply Zsum_cong0. intros k Hk. destruct (Hb k Hk) as [_ H]. specialize (H Hd t Ht Hl). apply z_iff in H; auto. rewrite H, Z.mul_0_r. reflexivity.
Qed.

Lemma s_bounds_sub K d : subspace p (s_bounds p n K d).
Proof.
  intros N c b v Hb E. split; [apply (s_chain_sub K d N c b); auto; intros; apply Hb; auto|].
  assert (HW : exists w : nat -> list nat -> Z, forall k, (k < N)%nat -> s_chain p K (S d) (w k) /\
    forall t, increasing t -> length t = S d -> simplicial_bd n (w k) t mod p = b k t mod p).
  { clear E. induction N as [|N IH]; [exists (fun _ _ => 0); intros; lia|]. destruct IH as (w & Hw); [intros; apply Hb; lia|].
    destruct (Hb N ltac:(lia)) as (_ & u & Hu). exists (fun k => if Nat.eqb k N then u else w k). intros k Hk.
    destruct (Nat.eqb_spec k N) as [->|Hne]; [exact Hu|]. apply Hw. lia. }
  destruct HW as (w & Hw). exists (fun s => Zsum N (fun k => c k * w k s)). split.
  - apply (s_chain_sub K (S d) N c w); auto. intros k Hk. apply Hw. auto.
  - intros t Ht Hl. rewrite E. apply cong_iff_mod; [lia|].
    rewrite (simplicial_bd_lin p n N c w _ t) by reflexivity. apply Zsum_cong. intros k Hk. destruct (Hw k Hk) as [_ H].
    specialize (H t Ht Hl). apply cong_iff_mod in H; [|lia]. rewrite H. reflexivity.
Qed.

Lemma s_bounds_mono (K K' : nat -> list nat -> Prop) d v : (forall e s, K e s -> K' e s) -> s_bounds p n K d v -> s_bounds p n K' d v.
Proof. intros H (H1 & w & H2 & H3). split; [intros s Hs; auto|]. exists w. split; auto. intros s Hs. auto. Qed.

Lemma s_cycle_mono (K K' : nat -> list nat -> Prop) d v : (forall e s, K e s -> K' e s) -> s_cycle p n K d v -> s_cycle p n K' d v.
Proof. intros H (H1 & H2). split; auto. intros s Hs. auto. Qed.
End Spaces.

Lemma rips_mono Dist d r s x : r <= s -> rips Dist d r x -> rips Dist d s x.
Proof.
  intros H [(C1 & C2 & C3 & C4) H0]. split; [|lia]. repeat (split; auto). intros u v Hu Hv Huv. specialize (C4 u v Hu Hv Huv). cbn in *. lia.
Qed.

Section Final.
Variable argsort : list Z -> list nat.
Hypothesis Hsort : sorts argsort.
Variable rnd : Z -> Z.
Variable Dist : list (list Z).
Hypothesis Hsq : square Dist.
Hypothesis Hnn : forall u v, (u < v < length Dist)%nat -> 0 <= dist Dist u v.
Variables max_r max_dim p : Z.
Hypothesis Hmax : 0 < max_r.
Hypothesis Hp : prime p.
Let n := length Dist.
Let m := Z.to_nat (Z.max 1 max_dim).

Lemma local_barcode Cs Ds out : local_homology argsort rnd Dist max_r max_dim p = Ok (Cs, Ds, out) ->
  forall d, (d <= m)%nat ->
  barcode p (fun r => s_cycle p n (fun d => rips_upto m Dist d r) d) (fun r => s_bounds p n (fun d => rips_upto m Dist d r) d)
    max_r (b_bars (nth d (ph_hom out) empty_basis)).
Proof.
  intros E d Hd. assert (Hp1 : 1 < p) by (destruct Hp; auto).
  set (h := nth d (ph_hom out) empty_basis).
  assert (Hmon : forall r s v, r <= s -> s_bounds p n (fun d => rips_upto m Dist d r) d v -> s_bounds p n (fun d => rips_upto m Dist d s) d v).
  { intros r s v Hrs. apply s_bounds_mono. intros e x [H H']. split; auto. apply (rips_mono Dist e r); auto. }
  apply (persistent_barcode p _ _ max_r _ (fun k => on_simplices (level n Cs d) (colv (b_coords h) k))).
  - intros r _. apply s_bounds_sub. auto.
  - intros r s v Hrs. apply Hmon. lia.
  - split; [|split].
    + intros x Hx. apply (local_bars argsort Hsort rnd Dist Hsq Hnn max_r max_dim p Hmax Hp Cs Ds out E d Hd x Hx).
    + intros r Hr. apply (local_basis argsort Hsort rnd Dist Hsq Hnn max_r max_dim p Hmax Hp Cs Ds out E d r Hd Hr).
    + intros r k Hr Hk Hdead. destruct (local_inv argsort Hsort rnd Dist Hsq Hnn max_r max_dim p Hmax Hp Cs Ds out E) as (R & H1 & H2 & H3 & H4 & H5 & VC).
      fold m in H4, H5. destruct (C21_aux rnd p max_r n Ds R out Hp VC H3 d k) as [H6 _]; [lia|auto|].
      apply (Hmon (bdeath (b_bars h) k)); auto. rewrite <- H4.
      apply (bounds_to argsort Hsort Dist Hsq Hnn max_r max_dim p Hp1 Cs R Ds H1 H2); [|apply H6]; fold h; lia.
Qed.
End Final.

Lemma barcode_iff {X} p (Z1 Z2 B1 B2 : Z -> (X -> Z) -> Prop) M bars :
  (forall r v, r < M -> Z1 r v <-> Z2 r v) -> (forall r v, r < M -> B1 r v <-> B2 r v) -> barcode p Z1 B1 M bars -> barcode p Z2 B2 M bars.
Proof.
  intros HZ HB [H1 H2]. split; auto. intros r s Hrs. destruct (H2 r s Hrs) as (g & Hg). exists g.
  eapply quotient_basis_iff; [| |exact Hg]; [intros; apply HZ|intros; apply HB]; lia.
Qed.

Lemma C26_barcode_aux : forall argsort, sorts argsort -> forall rnd Dist max_r max_dim p,
  square Dist -> (forall u v, (u < v < length Dist)%nat -> 0 <= dist Dist u v) -> 0 < max_r -> prime p ->
  forall Cs Ds out, local_homology argsort rnd Dist max_r max_dim p = Ok (Cs, Ds, out) ->
  forall d, (d < Z.to_nat (Z.max 1 max_dim))%nat -> let n := length Dist in
  barcode p (fun r => s_cycle p n (fun d => rips Dist d r) d) (fun r => s_bounds p n (fun d => rips Dist d r) d)
    max_r (b_bars (nth d (ph_hom out) empty_basis)).
Proof.
  intros argsort Hs rnd Dist max_r max_dim p Hsq Hnn Hm Hp Cs Ds out E d Hd n.
  eapply barcode_iff; [| |eapply local_barcode; eauto; lia].
  - intros r v _. apply cycle_upto. lia.
  - intros r v _. apply bounds_upto. auto.
Qed.

(** Whatever else is shown to be the barcode of the Rips filtration has the bars of the local pipeline. *)
Lemma C26_barcode_unique_aux : forall argsort, sorts argsort -> forall rnd Dist max_r max_dim p,
  square Dist -> (forall u v, (u < v < length Dist)%nat -> 0 <= dist Dist u v) -> 0 < max_r -> prime p ->
  forall Cs Ds out, local_homology argsort rnd Dist max_r max_dim p = Ok (Cs, Ds, out) ->
  forall d bars, (d < Z.to_nat (Z.max 1 max_dim))%nat -> let n := length Dist in
  barcode p (fun r => s_cycle p n (fun d => rips Dist d r) d) (fun r => s_bounds p n (fun d => rips Dist d r) d) max_r bars ->
  Permutation bars (b_bars (nth d (ph_hom out) empty_basis)).
Proof.
  intros argsort Hs rnd Dist max_r max_dim p Hsq Hnn Hm Hp Cs Ds out E d bars Hd n H.
  eapply (barcode_unique p Hp); [|exact H|apply (C26_barcode_aux argsort Hs rnd Dist max_r max_dim p Hsq Hnn Hm Hp Cs Ds out E d Hd)].
  intros r _. apply s_bounds_sub. destruct Hp; auto.
Qed.
