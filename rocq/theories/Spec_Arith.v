(** * Specification: remainders as in Python.  Nothing here refers to the model. *)
From Verif Require Import Base.
Local Open Scope Z_scope.

(** [s] is the remainder of [x] by [c]: it differs from [x] by a multiple of [c], is nearer to zero than [c] and does not have the other sign; the meaning of [s % c] in gauss_mod_p/arithmetic_mod_p.py:10-27. *)
Definition remainder (x c s : Z) : Prop := (exists k, x = s + k * c) /\ (0 <= s < c \/ c < s <= 0).
