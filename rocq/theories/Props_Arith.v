(** * Property C79: additions modulo a number *)
From Verif Require Import Base Gauss_model Spec_Arith Arith_props.
Local Open Scope Z_scope.

(** ** C79: [add_mod_c] returns the remainder of the sum, with the sign of the modulus. *)
Theorem C79_add : forall a b c, c <> 0 -> remainder (a + b) c (add_mod_c a b c) /\ forall s, remainder (a + b) c s -> s = add_mod_c a b c.
Proof. exact add_mod_remainder. Qed.
Print Assumptions C79_add.

(** The remainders form a group. *)
Theorem C79_group : forall a b d c, c <> 0 -> add_mod_c a b c = add_mod_c b a c /\ add_mod_c (add_mod_c a b c) d c = add_mod_c a (add_mod_c b d c) c /\ add_mod_c a (- a) c = 0 /\ remainder a c (add_mod_c a 0 c).
Proof. exact add_mod_group. Qed.
Print Assumptions C79_group.

(** [add_arrays_mod_c] does this in every entry. *)
Theorem C79_arrays : forall u v c, c <> 0 -> length u = length v -> length (add_arrays_mod_c u v c) = length u /\
  forall i, (i < length u)%nat -> remainder (nth i u 0 + nth i v 0) c (nth i (add_arrays_mod_c u v c) 0).
Proof. exact add_arrays_remainder. Qed.
Print Assumptions C79_arrays.

Example C79_numbers : add_mod_c 4 3 5 = 2 /\ add_mod_c (-4) (-3) 5 = 3 /\ add_mod_c 4 3 (-5) = -3 /\ add_arrays_mod_c [1; -4; 7] [2; 1; -7] 5 = [3; 2; 0].
Proof. repeat split; reflexivity. Qed.
