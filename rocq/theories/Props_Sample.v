(** * Property C48: [take_sample] *)
From Verif Require Import Base Sample_model Spec_Sample Sample_props.
Local Open Scope Z_scope.

(** Whatever the random draw, also for the start -1, the sample consists of min(n, k) points with distinct indices, in
    an order in which each point is as far as possible from the ones before it. *)
Theorem C48_take_sample : forall (P : Type) (pts : list P) D k draw (d0 : P),
  distances (length pts) D -> 1 <= k -> 0 <= draw < Z.of_nat (length pts) ->
  exists idx, take_sample pts D k draw = Ok (map (fun j => nth j pts d0) idx) /\
    Z.of_nat (length idx) = Z.min (Z.of_nat (length pts)) k /\ NoDup idx /\ (forall i, In i idx -> (i < length pts)%nat) /\
    hd 0%nat idx = Z.to_nat ((draw - 1) mod Z.of_nat (length pts)) /\ farthest_first (length pts) D idx.
Proof. exact (fun P => @take_sample_aux P). Qed.
Print Assumptions C48_take_sample.

(** A request for no points returns one. *)
Theorem C48_no_points : forall (P : Type) (pts : list P) D k draw, k <= 0 -> 0 <= draw < Z.of_nat (length pts) ->
  exists x, take_sample pts D k draw = Ok [x] /\ In x pts.
Proof. exact (fun P => @take_sample_few_aux P). Qed.
Print Assumptions C48_no_points.

(** An empty cloud raises. *)
Theorem C48_empty : forall (P : Type) D k draw, exists e, take_sample (@nil P) D k draw = Err e.
Proof. exact (fun P => @take_sample_empty_aux P). Qed.
Print Assumptions C48_empty.

(** The points 0, 1, 5, 6, 6 of a line, starting from the index -1 and from the index 1; the last two points coincide. *)
Definition line : list Z := [0; 1; 5; 6; 6].
Definition line_dist : mat := Mat 5 (map (fun x => map (fun y => Z.abs (x - y)) line) line).
Example C48_case : distances (length line) line_dist /\
  take_sample [10; 11; 12; 13; 14] line_dist 5 0 = Ok [14; 10; 11; 12; 13] /\
  take_sample [10; 11; 12; 13; 14] line_dist 3 2 = Ok [11; 13; 10] /\
  take_sample [10; 11; 12; 13; 14] line_dist 9 2 = Ok [11; 13; 10; 12; 14].
Proof.
  split; [|vm_compute; repeat split].
  split.
  - intros i j Hi Hj. cbn [line length] in Hi, Hj. destruct i as [|[|[|[|[|i]]]]]; [..|lia]; destruct j as [|[|[|[|[|j]]]]]; try lia; vm_compute; discriminate.
  - intros i Hi. cbn [line length] in Hi. destruct i as [|[|[|[|[|i]]]]]; [..|lia]; reflexivity.
Qed.
