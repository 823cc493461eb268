(** * Specification of the second page

    Families of local chains over the simplices of one dimension of the nerve: [v (k, j)] is the coefficient of the [j]-th simplex
    of the complex over the [k]-th simplex of the nerve. *)
From Verif Require Import Base Basis_model PH_model Spec_Simp Spec_Rips SS_model Spec_SS.
Local Open Scope Z_scope.

Section E2.
Variables (p : Z) (Dist : list (list Z)) (IN : list (list (list nat))) (n0 : nat) (nerve : list (list (list nat))) (S : ss) (d : nat).

Definition part (v : nat * nat -> Z) (k j : nat) : Z := v (k, j).

(** Families of local cycles and of local boundaries. *)
Definition fam_cycle (n : nat) (r : Z) (v : nat * nat -> Z) : Prop :=
  (forall k j, (length (level n0 nerve n) <= k)%nat -> v (k, j) mod p = 0) /\
  forall k, (k < length (level n0 nerve n))%nat -> local_cycle p Dist IN S n d k r (part v k).
Definition fam_bounds (n : nat) (r : Z) (v : nat * nat -> Z) : Prop :=
  (forall k j, (length (level n0 nerve n) <= k)%nat -> v (k, j) mod p = 0) /\
  forall k, (k < length (level n0 nerve n))%nat -> local_bounds p Dist IN S n d k r (part v k).

(** The Cech differential, from families over dimension [n + 1] to families over dimension [n]. *)
Definition fam_cech (n : nat) (v : nat * nat -> Z) (x : nat * nat) : Z :=
  if Nat.ltb (fst x) (length (level n0 nerve n)) then cech_image n0 nerve IN S n d (fst x) (part v) (snd x) else 0.

(** Cycles whose Cech differential bounds, and cycles homologous to a Cech differential of cycles. *)
Definition page2_cycle (n : nat) (r : Z) (v : nat * nat -> Z) : Prop :=
  fam_cycle n r v /\ match n with O => True | Datatypes.S n' => fam_bounds n' r (fam_cech n' v) end.
Definition page2_bounds (n : nat) (r : Z) (v : nat * nat -> Z) : Prop :=
  fam_cycle n r v /\ exists w, fam_cycle (Datatypes.S n) r w /\ fam_bounds n r (fun x => v x - fam_cech n w x).
End E2.

(** Every simplex of the nerve is a facet of one of the next dimension, up to the top dimension; the last level is empty. *)
Definition pure_nerve (n0 : nat) (nerve : list (list (list nat))) : Prop :=
  (forall n, (Datatypes.S n < length nerve)%nat -> level n0 nerve (Datatypes.S n) = [] \/ has_cofaces n0 nerve n) /\ level n0 nerve (length nerve) = [].

(** Ends of the bars of the local homologies in degree [d]. *)
Definition local_end (n0 : nat) (nerve : list (list (list nat))) (S : ss) (d : nat) (x : Z) : Prop :=
  exists n k b, (n < length nerve)%nat /\ (k < length (level n0 nerve n))%nat /\ In b (b_bars (hom_of S n k d)) /\ (x = fst b \/ x = snd b).

(** The radii of the filtration. *)
Definition filtration_value (Dist : list (list Z)) (max_r x : Z) : Prop :=
  x = 0 \/ x = max_r \/ exists u v, (u < v < length Dist)%nat /\ x = dist Dist u v.

(** Every simplex of the cloud of dimension [d] within distance [max_r] lies in an element of the cover. *)
Definition fine (Dist : list (list Z)) (max_r : Z) (IN : list (list (list nat))) (n0 d : nat) : Prop :=
  forall s, clique (length Dist) (near Dist max_r) d s -> exists k, (k < n0)%nat /\ incl s (ins_of IN 0 k).

(** Elements of the cover joined by edges of the nerve, through elements which contain the point [q]. *)
Inductive linked (IN : list (list (list nat))) (n0 : nat) (nerve : list (list (list nat))) (q a : nat) : nat -> Prop :=
| linked_refl : linked IN n0 nerve q a a
| linked_step b c : linked IN n0 nerve q a b -> In q (ins_of IN 0 b) -> In q (ins_of IN 0 c) ->
    In [b; c] (level n0 nerve 1) \/ In [c; b] (level n0 nerve 1) -> linked IN n0 nerve q a c.
