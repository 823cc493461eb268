(** * Specification: calls of [create_MV_ss] whose results can be compared *)
From Coq Require Import QArith Qabs.
From Verif Require Import Base Spec_Simp Spec_SS Spec_E2 Cover_model Spec_Cover Spec_Call Spec_MV Spec_Two Spec_Nerve Spec_Symm.
Local Open Scope Z_scope.

(** A call on a cloud which is thick in every direction, with an overlap at least as large as the distances below [max_r]. *)
Record sound_call (argsort : list Z -> list nat) (rnd : Z -> Z) (dim : nat) (pc : list point) (Dist : list (list Z))
    (max_r max_dim max_div : Z) (overlap : Q) (p : Z) : Prop := {
  sc_cloud : cloud_call argsort rnd dim pc Dist max_r max_dim max_div p;
  sc_dim : (0 < dim)%nat;
  sc_thick : thick dim pc;
  sc_overlap : (0 <= overlap)%Q;
  sc_near : forall u v e, (u < v < length pc)%nat -> dist Dist u v < max_r -> (e < dim)%nat -> (Qabs (nth e (nth u pc []) 0 - nth e (nth v pc []) 0) <= overlap)%Q
}.

(** The cloud is divided in one direction only, or all intersections of the cover are acyclic. *)
Definition simple_cover (dim : nat) (pc : list point) (Dist : list (list Z)) (max_r max_dim max_div : Z) (overlap : Q) (p : Z) : Prop :=
  (exists e, elongated max_div overlap dim pc e) \/
  (wide max_div overlap dim pc /\
   forall pts IN n0 nerve, generate_cover (fun x => x) max_div overlap dim pc = Ok (pts, IN, (n0, nerve)) -> acyclic_cover p Dist max_r max_dim IN n0 nerve).

(** The distances [Dist'] up to [M'] come from [Dist] up to [M]: the same ones, on another scale, up to a smaller radius, in another order
    of the points or with repeated points.  The last argument tells what becomes of the bars. *)
Inductive change (Dist Dist' : list (list Z)) (M M' : Z) : (list (Z * Z) -> list (Z * Z)) -> Prop :=
| same : Dist' = Dist -> M' = M -> change Dist Dist' M M' (fun bars => bars)
| by_scale f : scale f -> rescaled f Dist Dist' -> M' = f M -> change Dist Dist' M M' (scale_bars f)
| by_cut : Dist' = Dist -> M' <= M -> change Dist Dist' M M' (cut_bars M')
| by_order l : symmetric Dist -> reordered l Dist Dist' -> M' = M -> change Dist Dist' M M' (fun bars => bars)
| by_repeat l : symmetric Dist -> (forall u, (u < length Dist)%nat -> dist Dist u u = 0) -> repeated l Dist Dist' -> M' = M ->
    change Dist Dist' M M' (fun bars => bars).
