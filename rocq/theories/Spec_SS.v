(** * Specification of the double complex of a covered point cloud *)
From Verif Require Import Base Basis_model PH_model Spec_Simp Spec_Rips SS_model.
From Coq Require Import Znumtheory.
Local Open Scope Z_scope.

(** [IN] lists the points of the elements of a cover of [N] points and of their intersections, indexed by the
    simplices of a complex with [n0] vertices and levels [nerve]. *)
Record covering (N n0 : nat) (nerve : list (list (list nat))) (IN : list (list (list nat))) : Prop := {
  cov_simp : simplicial n0 nerve;
  cov_dim : nerve <> [];
  cov_len : length IN = S (length nerve);
  cov_size : forall d, (d <= length nerve)%nat -> length (nth d IN []) = length (level n0 nerve d);
  cov_incr : forall d k, increasing (nth k (nth d IN []) []);
  cov_lt : forall d k q, In q (nth k (nth d IN []) []) -> (q < N)%nat;
  cov_meet : forall d k q, (d <= length nerve)%nat -> (k < length (level n0 nerve d))%nat ->
    In q (nth k (nth d IN []) []) <-> forall v, In v (nth k (level n0 nerve d) []) -> In q (nth v (nth 0 IN []) [])
}.

(** Input of the spectral sequence. *)
Record mv_input (argsort : list Z -> list nat) (Dist : list (list Z)) (max_r max_dim p : Z)
    (IN : list (list (list nat))) (n0 : nat) (nerve : list (list (list nat))) : Prop := {
  mv_sorts : sorts argsort;
  mv_square : square Dist;
  mv_nonneg : forall u v, (u < v < length Dist)%nat -> 0 <= dist Dist u v;
  mv_max_r : 0 < max_r;
  mv_max_dim : 0 < max_dim;
  mv_prime : prime p;
  mv_cover : covering (length Dist) n0 nerve IN
}.

(** A simplex on positions in [ins], as a simplex on the points of the cloud. *)
Definition glob (ins : list nat) (s : list nat) : list nat := map (fun i => nth i ins 0%nat) s.

(** Every simplex of dimension [n] of the nerve is a facet of some simplex of dimension [n+1]. *)
Definition has_cofaces (n0 : nat) (nerve : list (list (list nat))) (n : nat) : Prop :=
  forall t, In t (level n0 nerve n) -> exists s k, In s (level n0 nerve (S n)) /\ (k <= S n)%nat /\ t = facet k s.

(** Coefficient of [t] in the alternating boundary of [s]. *)
Definition coeff (t s : list nat) : Z :=
  Zsum (length s) (fun k => if list_eq_dec Nat.eq_dec (facet k s) t then (-1) ^ Z.of_nat k else 0).

(** Boundary of the nerve, from dimension [n+1] to dimension [n]; the code orients edges the other way round. *)
Definition nerve_bd (n0 : nat) (nerve : list (list (list nat))) (n k s : nat) : Z :=
  match n with O => -1 | S _ => 1 end * coeff (nth k (level n0 nerve n) []) (nth s (level n0 nerve (S n)) []).

(** ** Reading the 0 page *)
Definition no_local : local := Local 0 [] [] (PhOut [] [] []).
Definition no_column : column := Column [] [] [] [].
Definition ins_of (IN : list (list (list nat))) (n k : nat) : list nat := nth k (nth n IN []) [].
Definition loc_of (S : ss) (n k : nat) : local := nth k (c_loc (nth n (s_cols S) no_column)) no_local.

(** The [d]-simplices of the complex over the [k]-th simplex of dimension [n] of the nerve, as simplices of the cloud. *)
Definition simplices (IN : list (list (list nat))) (S : ss) (n k d : nat) : list (list nat) :=
  map (glob (ins_of IN n k)) (level (length (ins_of IN n k)) (l_Cs (loc_of S n k)) d).

(** Number of these simplices, for each simplex of dimension [n] of the nerve. *)
Definition sizes IN n0 nerve S (n d : nat) : list nat :=
  map (fun k => length (simplices IN S n k d)) (seq 0 (length (level n0 nerve n))).

(** The boundary of a local chain, from degree [d + 1] to degree [d]. *)
Definition local_bd IN S (n d k : nat) (v : nat -> Z) (j : nat) : Z :=
  Zsum (length (simplices IN S n k (Datatypes.S d))) (fun i => get (nth d (l_Ds (loc_of S n k)) (Mat 0 [])) j i * v i).

(** Local chains, cycles and boundaries of degree [d] present at radius [r]. *)
Definition local_chain p Dist IN S (n d k : nat) (r : Z) (v : nat -> Z) : Prop :=
  forall j, v j mod p <> 0 -> (j < length (simplices IN S n k d))%nat /\ rips Dist d r (nth j (simplices IN S n k d) []).
Definition local_cycle p Dist IN S (n d k : nat) (r : Z) (v : nat -> Z) : Prop :=
  local_chain p Dist IN S n d k r v /\
  match d with O => True | Datatypes.S d' => forall i, local_bd IN S n d' k v i mod p = 0 end.
Definition local_bounds p Dist IN S (n d k : nat) (r : Z) (v : nat -> Z) : Prop :=
  exists w, local_chain p Dist IN S n (Datatypes.S d) k r w /\ forall j, local_bd IN S n d k w j mod p = v j mod p.

(** Homology, boundaries and preimages computed over one simplex of the nerve. *)
Definition hom_of (S : ss) (n k d : nat) : basis := nth d (ph_hom (l_out (loc_of S n k))) empty_basis.
Definition im_of (S : ss) (n k d : nat) : basis := nth d (ph_im (l_out (loc_of S n k))) empty_basis.

(** Number of classes over the simplices of the nerve before the [k]-th, and over all of them. *)
Definition classes_before (S : ss) (n d k : nat) : nat := list_sum (map (fun i => length (b_bars (hom_of S n i d))) (seq 0 k)).
Definition classes (n0 : nat) (nerve : list (list (list nat))) (S : ss) (n d : nat) : nat := classes_before S n d (length (level n0 nerve n)).

(** Cech image in degree [d], over the [k]-th simplex of dimension [n], of a chain [v s] over each simplex [s] of dimension [n+1]:
    extension by zero along the inclusions, with the signs of the double complex. *)
Definition cech_image n0 nerve IN S (n d k : nat) (v : nat -> nat -> Z) (j : nat) : Z :=
  (-1) ^ Z.of_nat d * Zsum (length (level n0 nerve (Datatypes.S n))) (fun s =>
    nerve_bd n0 nerve n k s * on_simplices (simplices IN S (Datatypes.S n) s d) (v s) (nth j (simplices IN S n k d) [])).
