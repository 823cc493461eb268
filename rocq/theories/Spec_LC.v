(** * Specification of local chains *)
From Verif Require Import Base Spec_Simp LC_model.
Local Open Scope Z_scope.

(** Coefficient of the [g]-th chain on the [j]-th local simplex of the [k]-th cover element. *)
Definition at_entry (e : lentry) (g j : nat) : Z :=
  match find_idx (Nat.eqb g) (le_ref e) with
  | Some i => nth j (nth i (lrows (le_coord e)) []) 0
  | None => 0
  end.
Definition value (c : chains) (k g j : nat) : Z := at_entry (nth k c (LEntry [] LNil)) g j.

(** References are increasing; there is one row of length [w] per reference. *)
Definition good_entry (w : nat) (e : lentry) : Prop :=
  increasing (le_ref e) /\
  match le_coord e with
  | LNil => le_ref e = []
  | LMat w' rows => w' = w /\ length rows = length (le_ref e) /\ Forall (fun r => length r = w) rows
  end.
(** [ws] gives the number of simplices of each cover element. *)
Definition good (ws : list nat) (c : chains) : Prop := Forall2 good_entry ws c.
