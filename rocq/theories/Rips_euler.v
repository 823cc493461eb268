(** * The Euler characteristic of the Rips complex *)
From Coq Require Import Permutation Znumtheory.
From Verif Require Import Base ListX Lin Basis_model PH_model Simp_model Spec_Simp Simp_props Spec_PH Spec_Rips Rips_chain Rips_props Spec_Euler PH_euler.
Local Open Scope Z_scope.

Theorem euler_local : forall argsort rnd Dist max_r max_dim p, sorts argsort -> square Dist -> (forall u v, (u < v < length Dist)%nat -> 0 <= dist Dist u v) -> 0 < max_r -> prime p ->
  forall Cs Ds out, local_homology argsort rnd Dist max_r max_dim p = Ok (Cs, Ds, out) -> let m := Z.to_nat (Z.max 1 max_dim) in
  forall r N, r < max_r -> (forall d, (d <= m)%nat -> simplex_count Dist r d (N d)) ->
  alternating m N = alternating m (fun d => count_bars (spans r r) (b_bars (nth d (ph_hom out) empty_basis))).
Proof.
  intros argsort rnd Dist max_r max_dim p Hs Hsq Hnn Hm Hp Cs Ds out E m r N Hr HN. destruct (local_inv argsort Hs rnd Dist Hsq Hnn max_r max_dim p Hm Hp Cs Ds out E) as (R & H1 & H2 & H3 & H4 & H5 & VC).
  assert (p1 : 1 < p) by (destruct Hp; lia). pose proof (euler rnd p max_r (length Dist) Ds R out Hp VC H3 r Hr) as EU. rewrite H5 in EU. fold m in EU. rewrite <- EU. unfold alternating. apply Zsum_ext. intros d Hd. f_equal. f_equal.
  destruct (HN d ltac:(lia)) as (l & Nd & Hl & ->). unfold cells_at. rewrite <- (filter_nth (fun x => x <=? r) 0). change (length (nth d R [])) with (csize R d).
  set (f := fun k => nth k (nth d R []) 0 <=? r). set (L := level (length Dist) Cs d).
  assert (CL : csize R d = length L) by (eapply csize_L; eauto).
  assert (ND : NoDup L) by (eapply L_NoDup; eauto).
  rewrite <- (map_length (fun i => nth i L []) (filter f (seq 0 (csize R d)))). apply Permutation_length. apply NoDup_Permutation; [exact Nd| |].
  - assert (X : NoDup (filter f (seq 0 (csize R d)))) by (apply NoDup_filter, seq_NoDup). revert X. assert (B : forall i, In i (filter f (seq 0 (csize R d))) -> (i < length L)%nat) by (intros i Hi; apply filter_In in Hi; destruct Hi as [Hi _]; apply in_seq in Hi; lia).
    revert B. generalize (filter f (seq 0 (csize R d))). induction l0 as [|x l0 IH]; intros B X; [constructor|]. inversion_clear X as [|? ? X1 X2]. cbn [map]. constructor; [|apply IH; [intros i Hi; apply B; right; exact Hi|exact X2]].
    intros Hin. apply in_map_iff in Hin. destruct Hin as (y & Ey & Hy). apply X1. rewrite <- (proj1 (NoDup_nth L []) ND y x); [exact Hy|apply B; right; exact Hy|apply B; left; reflexivity|exact Ey].
  - intros s. rewrite Hl. assert (RC : rips_upto (length Cs) Dist d r s <-> exists i, (i < length L)%nat /\ nth i L [] = s /\ crad R d i <= r) by (eapply rips_cell; eauto). rewrite H4 in RC. split.
    + intros Hs'. assert (U : rips_upto m Dist d r s) by (split; [exact Hs'|lia]). apply RC in U. destruct U as (i & Hi & Ei & Ri). apply in_map_iff. exists i. split; [exact Ei|]. apply filter_In. split; [apply in_seq; fold L in Hi; lia|]. apply Z.leb_le. exact Ri.
    + intros Hin. apply in_map_iff in Hin. destruct Hin as (i & Ei & Hi). apply filter_In in Hi. destruct Hi as [Hi Fi]. apply in_seq in Hi. apply Z.leb_le in Fi. apply RC. exists i. split; [fold L; lia|]. split; [exact Ei|exact Fi].
Qed.
