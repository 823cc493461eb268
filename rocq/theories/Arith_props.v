(** * Additions modulo a number *)
From Verif Require Import Base ListX Gauss_model Gauss_col Spec_Arith.
Local Open Scope Z_scope.

Lemma remainder_mod x c : c <> 0 -> remainder x c (x mod c).
Proof.
  intros Hc. split; [exists (x / c); rewrite (Z.div_mod x c Hc) at 1; ring|].
  destruct (Z_lt_le_dec 0 c) as [P|P]; [left; apply Z.mod_pos_bound; exact P|right; apply Z.mod_neg_bound; lia].
Qed.
Lemma remainder_unique x c s t : remainder x c s -> remainder x c t -> s = t.
Proof.
  intros [(k & E) H] [(l & F) G]. assert (D : s - t = (l - k) * c) by lia. assert (l - k = 0) as Z0 by nia. rewrite Z0 in D. lia.
Qed.

Theorem add_mod_remainder : forall a b c, c <> 0 -> remainder (a + b) c (add_mod_c a b c) /\ forall s, remainder (a + b) c s -> s = add_mod_c a b c.
Proof. intros a b c Hc. pose proof (remainder_mod (a + b) c Hc) as R. split; [exact R|]. intros s H. exact (remainder_unique _ _ _ _ H R). Qed.

Theorem add_mod_group : forall a b d c, c <> 0 -> add_mod_c a b c = add_mod_c b a c /\ add_mod_c (add_mod_c a b c) d c = add_mod_c a (add_mod_c b d c) c /\ add_mod_c a (- a) c = 0 /\ remainder a c (add_mod_c a 0 c).
Proof.
  intros a b d c Hc. unfold add_mod_c. split; [f_equal; ring|]. split; [rewrite Zplus_mod_idemp_l, Zplus_mod_idemp_r; f_equal; ring|]. split; [rewrite Z.add_opp_diag_r; apply Zmod_0_l|]. rewrite Z.add_0_r. apply remainder_mod. exact Hc.
Qed.

Theorem add_arrays_remainder : forall u v c, c <> 0 -> length u = length v -> length (add_arrays_mod_c u v c) = length u /\
  forall i, (i < length u)%nat -> remainder (nth i u 0 + nth i v 0) c (nth i (add_arrays_mod_c u v c) 0).
Proof.
  intros u v c Hc HL. split; [apply add_arrays_length; exact HL|]. intros i Hi. change (remainder (nth i u 0 + nth i v 0) c (vget (add_arrays_mod_c u v c) i)). rewrite vget_add_arrays by exact HL. apply remainder_mod. exact Hc.
Qed.
