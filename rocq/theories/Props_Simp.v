(** * Properties C13-C18: simplicial complexes and their boundary matrices *)
From Verif Require Import Base SortX PH_model Simp_model Spec_Simp Simp_props.
From Coq Require Import Sorted Permutation.
Local Open Scope Z_scope.

(** ** C13: the simplices are exactly the cliques *)
Theorem C13_rips_cliques : forall argsort, sorts argsort -> forall Dist, square Dist -> forall max_r max_dim,
  exists Cs R, vietoris_rips argsort Dist max_r max_dim = Ok (length Dist, Cs, R) /\
  length Cs = Z.to_nat (Z.max 1 max_dim) /\
  forall d, (1 <= d <= Z.to_nat (Z.max 1 max_dim))%nat ->
    NoDup (level (length Dist) Cs d) /\
    forall s, In s (level (length Dist) Cs d) <-> clique (length Dist) (near Dist max_r) d s.
Proof. exact C13_aux. Qed.
Print Assumptions C13_rips_cliques.

(** ** C14: birth radii *)
Theorem C14_rips_radii : forall argsort, sorts argsort -> forall Dist, square Dist -> forall max_r max_dim Cs R n',
  vietoris_rips argsort Dist max_r max_dim = Ok (n', Cs, R) ->
  length R = S (length Cs) /\ nth 0 R [] = repeat 0 (length Dist) /\
  forall d, (1 <= d <= length Cs)%nat ->
    length (nth d R []) = length (level (length Dist) Cs d) /\
    (forall i, (i < length (level (length Dist) Cs d))%nat ->
       diameter Dist (nth i (level (length Dist) Cs d) []) (nth i (nth d R []) 0) /\ nth i (nth d R []) 0 < max_r) /\
    (forall i j, (i <= j < length (level (length Dist) Cs d))%nat -> nth i (nth d R []) 0 <= nth j (nth d R []) 0).
Proof. exact C14_aux. Qed.
Print Assumptions C14_rips_radii.

(** ** C15: a filtered simplicial complex *)
Theorem C15_rips_filtered : forall argsort, sorts argsort -> forall Dist, square Dist -> forall max_r max_dim Cs R n',
  vietoris_rips argsort Dist max_r max_dim = Ok (n', Cs, R) ->
  simplicial (length Dist) Cs /\
  forall d i k, (1 <= d)%nat -> (i < length (level (length Dist) Cs (S d)))%nat -> (k <= S d)%nat ->
    exists j, (j < length (level (length Dist) Cs d))%nat /\
      nth j (level (length Dist) Cs d) [] = facet k (nth i (level (length Dist) Cs (S d)) []) /\
      nth j (nth d R []) 0 <= nth i (nth (S d) R []) 0.
Proof. exact C15_aux. Qed.
Print Assumptions C15_rips_filtered.

(** ** C16: flag complexes *)
Theorem C16_flag_cliques : forall G n max_dim,
  NoDup G -> (forall u v, In (u, v) G -> (u < v < n)%nat) -> 0 <= max_dim ->
  exists Cs, flag_complex G n max_dim = Ok (n, Cs) /\ length Cs = Z.to_nat max_dim /\
  forall d, (1 <= d <= Z.to_nat max_dim)%nat ->
    NoDup (level n Cs d) /\ forall s, In s (level n Cs d) <-> clique n (fun u v => In (u, v) G) d s.
Proof. exact C16_aux. Qed.
Print Assumptions C16_flag_cliques.

Theorem C16_negative_dimension : forall G n max_dim, max_dim < 0 -> flag_complex G n max_dim = Err ValueError.
Proof. exact C16_err_aux. Qed.
Print Assumptions C16_negative_dimension.

(** ** C17: signed facets *)
Theorem C17_signed_facets : forall n0 Cs p, 1 < p -> Cs <> [] -> well_formed n0 Cs ->
  exists Ds, complex_differentials n0 Cs p = Ok (n0, Ds) /\ length Ds = length Cs /\
  forall d, (d < length Cs)%nat ->
    let L := level n0 Cs d in let L' := level n0 Cs (S d) in let D := nth d Ds (Mat 0 []) in
    wf_mat D /\ nrows D = length L /\ ncols D = length L' /\
    forall i j, (i < length L)%nat -> (j < length L')%nat ->
      match d with
      | O => forall u v, nth j L' [] = [u; v] -> get D i j = if Nat.eqb i u then 1 else if Nat.eqb i v then p - 1 else 0
      | S _ =>
        (forall k, (k <= S d)%nat -> nth i L [] = facet k (nth j L' []) -> get D i j = ((-1) ^ Z.of_nat k) mod p) /\
        ((forall k, (k <= S d)%nat -> nth i L [] <> facet k (nth j L' [])) -> get D i j = 0)
      end.
Proof. exact C17_aux. Qed.
Print Assumptions C17_signed_facets.

(** ** C18: the boundary of a boundary vanishes *)
Theorem C18_boundary_squared : forall n0 Cs p n0' Ds, 1 < p -> simplicial n0 Cs ->
  complex_differentials n0 Cs p = Ok (n0', Ds) ->
  forall d i j, (S d < length Ds)%nat ->
    (i < nrows (nth d Ds (Mat 0 [])))%nat -> (j < ncols (nth (S d) Ds (Mat 0 [])))%nat ->
    ncols (nth d Ds (Mat 0 [])) = nrows (nth (S d) Ds (Mat 0 [])) /\
    Zsum (ncols (nth d Ds (Mat 0 []))) (fun k => get (nth d Ds (Mat 0 [])) i k * get (nth (S d) Ds (Mat 0 [])) k j) mod p = 0.
Proof. exact C18_aux. Qed.
Print Assumptions C18_boundary_squared.

(** ** Concrete cases: four points, all pairs but one at distance below 6 *)
Definition ex_Dist : list (list Z) := [[0;3;4;5]; [3;0;5;7]; [4;5;0;2]; [5;7;2;0]].

Example ex_sorts : sorts stable_argsort.
Proof. exact stable_argsort_sorts. Qed.

Example ex_square : square ex_Dist.
Proof. intros [|[|[|[|i]]]] H; cbn in *; try reflexivity; lia. Qed.

Example ex_rips : vietoris_rips stable_argsort ex_Dist 6 3 =
  Ok (4%nat, [[[2;3]; [0;1]; [0;2]; [1;2]; [0;3]]; [[0;2;3]; [0;1;2]]; []]%nat,
      [[0;0;0;0]; [2;3;4;5;5]; [5;5]; []]).
Proof. vm_compute. reflexivity. Qed.

Example ex_differentials :
  complex_differentials 4 [[[2;3]; [0;1]; [0;2]; [0;3]; [1;2]]; [[0;2;3]; [0;1;2]]; []]%nat 5 =
  Ok (4%nat, [Mat 4 [[0;0;1;4]; [1;4;0;0]; [1;0;4;0]; [1;0;0;4]; [0;1;4;0]];
              Mat 5 [[1;0;1;4;0]; [0;1;4;0;1]]; Mat 2 []]).
Proof. vm_compute. reflexivity. Qed.

Example ex_flag : flag_complex [(2,3); (0,1); (0,2); (0,3); (1,2); (1,3)]%nat 4 4 =
  Ok (4%nat, [[[2;3]; [0;1]; [0;2]; [0;3]; [1;2]; [1;3]]; [[0;2;3]; [1;2;3]; [0;1;2]; [0;1;3]]; [[0;1;2;3]]; []]%nat).
Proof. vm_compute. reflexivity. Qed.

(** Edges stored high-low break the flag complex: the graph must be given as in C16. *)
Theorem C16_unordered_edges_refuted : exists G n Cs s, NoDup G /\
  (forall u v, In (u, v) G -> (u < n /\ v < n /\ u <> v)%nat) /\
  flag_complex G n 2 = Ok (n, Cs) /\ In s (level n Cs 2) /\ ~ increasing s.
Proof.
  exists [(2,1); (0,1); (0,2)]%nat, 3%nat. eexists. exists [0;2;1]%nat. split; [|split; [|split; [vm_compute; reflexivity|split]]].
  - repeat constructor; simpl; intuition congruence.
  - simpl. intros u v H. repeat destruct H as [E|H]; try injection E as <- <-; try lia; tauto.
  - simpl. auto.
  - intros H. inversion H as [|? ? H' _]; subst. inversion H' as [|? ? _ F]; subst. inversion F; subst. lia.
Qed.
Print Assumptions C16_unordered_edges_refuted.
