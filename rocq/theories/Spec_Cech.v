(** * The homology of the Cech complex of the local homologies

    Nothing below depends on what the code computes.  [IN] lists, for every dimension of the nerve, the points of the cloud in the
    intersection over each of its simplices.  A family [v] has the coefficient [v (k, s)] on the simplex [s] of the cloud, within the
    Rips complex of the intersection over the [k]-th simplex of dimension [n] of the nerve. *)
From Verif Require Import Base Spec_Simp Spec_Rips Spec_SS.
Local Open Scope Z_scope.

Section Cech.
Variables (p : Z) (Dist : list (list Z)) (IN : list (list (list nat))) (n0 : nat) (nerve : list (list (list nat))).

(** The Rips complex at radius [r] of an intersection. *)
Definition rips_in (n k : nat) (r : Z) (d : nat) (s : list nat) : Prop := rips Dist d r s /\ incl s (nth k (nth n IN []) []).

(** The conditions [P k] on the members of a family over dimension [n] of the nerve. *)
Definition family (n : nat) (P : nat -> (list nat -> Z) -> Prop) (v : nat * list nat -> Z) : Prop :=
  (forall k s, (length (level n0 nerve n) <= k)%nat -> v (k, s) mod p = 0) /\
  forall k, (k < length (level n0 nerve n))%nat -> P k (fun s => v (k, s)).

Definition cech_cycle (d n : nat) (r : Z) : (nat * list nat -> Z) -> Prop := family n (fun k => s_cycle p (length Dist) (rips_in n k r) d).
Definition cech_bounds (d n : nat) (r : Z) : (nat * list nat -> Z) -> Prop := family n (fun k => s_bounds p (length Dist) (rips_in n k r) d).

(** The Cech differential: over each simplex of the nerve, the signed sum of the members over its cofaces. *)
Definition cech (n : nat) (v : nat * list nat -> Z) (x : nat * list nat) : Z :=
  if Nat.ltb (fst x) (length (level n0 nerve n)) then
    Zsum (length (level n0 nerve (S n))) (fun t => coeff (nth (fst x) (level n0 nerve n) []) (nth t (level n0 nerve (S n)) []) * v (t, snd x))
  else 0.

(** Cycles whose Cech differential bounds, and cycles homologous to the Cech differential of a cycle. *)
Definition e2_cycle (d n : nat) (r : Z) (v : nat * list nat -> Z) : Prop :=
  cech_cycle d n r v /\ match n with O => True | S n' => cech_bounds d n' r (cech n' v) end.
Definition e2_bounds (d n : nat) (r : Z) (v : nat * list nat -> Z) : Prop :=
  cech_cycle d n r v /\ exists w, cech_cycle d (S n) r w /\ cech_bounds d n r (fun x => v x - cech n w x).
End Cech.
