(** * Specification of the representatives kept by the spectral sequence *)
From Verif Require Import Base Basis_model Spec_Simp LC_model Spec_LC SS_model Spec_SS.
Local Open Scope Z_scope.

(** A local chain in degree [d] whose boundary is zero. *)
Definition local_closed (p : Z) IN (S : ss) (n d k : nat) (v : nat -> Z) : Prop :=
  match d with O => True | Datatypes.S d' => forall j, local_bd IN S n d' k v j mod p = 0 end.

(** At the [k]-th simplex of dimension [n] of the nerve, the Cech image of [a], which lives over dimension [n + 1] and in degree [d],
    and the boundary of [b], which lives over dimension [n] and in degree [d + 1], cancel: "d_v(b) + d_cech(a) = 0". *)
Definition cancels (p : Z) IN n0 nerve (S : ss) (n d k : nat) (a b : chains) : Prop :=
  forall g j, (cech_image n0 nerve IN S n d k (fun s => value a s g) j + local_bd IN S n d k (value b k g) j) mod p = 0.

(** Representatives of classes at [(n, deg)]: one family of chains per step down the staircase, the first of local cycles;
    consecutive ones cancel over the simplices of the nerve at which [here] holds. *)
Record staircase (p : Z) IN n0 nerve (S : ss) (here : nat -> nat -> nat -> Prop) (n deg : nat) (reps : list chains) : Prop := {
  st_length : (length reps <= Datatypes.S n)%nat;
  st_good : forall i, (i < length reps)%nat -> good (sizes IN n0 nerve S (n - i) (deg + i)) (nth i reps []);
  st_closed : forall k g, (k < length (level n0 nerve n))%nat -> local_closed p IN S n deg k (value (nth 0 reps []) k g);
  st_cancel : forall i k, (Datatypes.S i < length reps)%nat -> (k < length (level n0 nerve (n - Datatypes.S i)))%nat ->
    here (n - Datatypes.S i)%nat (deg + i)%nat k ->
    cancels p IN n0 nerve S (n - Datatypes.S i) (deg + i) k (nth i reps []) (nth (Datatypes.S i) reps [])
}.

(** Simplices of the nerve over which there are classes in degree [d]. *)
Definition inhabited (S : ss) (n d k : nat) : Prop := b_bars (hom_of S n k d) <> [].
