(** * Specification: clouds which are near to each other have bars which are near to each other.  Nothing here refers to the model. *)
From Coq Require Import Permutation.
From Verif Require Import Base Spec_Simp Spec_PH.
Local Open Scope Z_scope.

(** The points of the two clouds are paired, every point at least once, and distances between partners, cut off at [M], differ by at most [e]. *)
Record paired (e M : Z) (l l' : list nat) (Dist Dist' : list (list Z)) : Prop := {
  pr_length : length l' = length l;
  pr_left : forall v, In v l <-> (v < length Dist)%nat;
  pr_right : forall v, In v l' <-> (v < length Dist')%nat;
  pr_near : forall i j, (i < j < length l)%nat ->
    Z.abs (Z.min M (dist Dist (nth i l 0%nat) (nth j l 0%nat)) - Z.min M (dist Dist' (nth i l' 0%nat) (nth j l' 0%nat))) <= e
}.

(** Symmetric distances with zeros on the diagonal. *)
Definition dissimilarity (Dist : list (list Z)) : Prop :=
  (forall u v, (u < length Dist)%nat -> (v < length Dist)%nat -> dist Dist u v = dist Dist v u) /\
  (forall u, (u < length Dist)%nat -> dist Dist u u = 0).

(** Bars made shorter by [e] at both ends are not more than the other bars, whatever the interval they have to contain. *)
Definition within_bars (e M : Z) (bars bars' : list (Z * Z)) : Prop :=
  forall r s, r + e <= s - e -> s < M -> (count_bars (spans r s) bars <= count_bars (spans (r + e) (s - e)) bars')%nat.

(** Every bar longer than [2 e], made shorter by [e] at both ends, is inside another bar. *)
Definition followed (e : Z) (bars bars' : list (Z * Z)) : Prop :=
  forall x, In x bars -> 2 * e < snd x - fst x -> exists y, In y bars' /\ fst y <= fst x + e /\ snd x - e <= snd y.

(** The two directions. *)
Definition near_bars (e M : Z) (bars bars' : list (Z * Z)) : Prop :=
  within_bars e M bars bars' /\ within_bars e M bars' bars /\ followed e bars bars' /\ followed e bars' bars.

(** The bar lives beyond [s]. *)
Definition lasting (s : Z) (x : Z * Z) : bool := s <? snd x.

(** For bars which begin at 0: those which live beyond [s] are not more than the others which live beyond [s - e]. *)
Definition near_deaths (e M : Z) (bars bars' : list (Z * Z)) : Prop :=
  forall s, e <= s < M -> (count_bars (lasting s) bars <= count_bars (lasting (s - e)) bars')%nat /\ (count_bars (lasting s) bars' <= count_bars (lasting (s - e)) bars)%nat.

(** Distances with the triangle inequality. *)
Definition metric (Dist : list (list Z)) : Prop :=
  dissimilarity Dist /\ forall u v w, (u < length Dist)%nat -> (v < length Dist)%nat -> (w < length Dist)%nat -> dist Dist u w <= dist Dist u v + dist Dist v w.

(** [Dist'] are the distances between the points [idx] of [Dist]. *)
Definition sampled (idx : list nat) (Dist Dist' : list (list Z)) : Prop :=
  length Dist' = length idx /\ (forall v, In v idx -> (v < length Dist)%nat) /\
  forall i j, (i < length idx)%nat -> (j < length idx)%nat -> dist Dist' i j = dist Dist (nth i idx 0%nat) (nth j idx 0%nat).

(** Every point is within [e] of a point of the sample. *)
Definition covering (e : Z) (idx : list nat) (Dist : list (list Z)) : Prop :=
  forall v, (v < length Dist)%nat -> exists u, In u idx /\ dist Dist v u <= e.

(** The bars of the two lists can be matched so that partners differ by at most [e] at both ends, except for some bars not longer than [2 e]. *)
Definition matched_bars (e : Z) (bars bars' : list (Z * Z)) : Prop :=
  exists l u u', Permutation bars (map fst l ++ u) /\ Permutation bars' (map snd l ++ u') /\
    (forall x y, In (x, y) l -> Z.abs (fst x - fst y) <= e /\ Z.abs (snd x - snd y) <= e) /\
    (forall x, In x u \/ In x u' -> snd x - fst x <= 2 * e).
