(** * Properties C32-C37 and C51: covers by hypercubes *)
From Verif Require Import Base Simp_model Spec_Simp Cover_model Spec_Cover Cover_nerve Cover_geom.
From Coq Require Import QArith Sorted.
Local Open Scope Z_scope.

(** ** C32: the odometer visits the grid in index order *)
Theorem C32_next_hypercube : forall div k, Forall (fun d => 1 <= d) div ->
  let pos := Nat.iter k (fun a => next_hypercube a div) (map (fun _ => 0) div) in
  in_grid div pos /\ grid_index div pos = Z.min (Z.of_nat k) (grid_size div - 1).
Proof. exact C32_aux. Qed.
Print Assumptions C32_next_hypercube.

Theorem C32_every_hypercube_once : forall div a, Forall (fun d => 1 <= d) div -> in_grid div a ->
  exists k, (k < Z.to_nat (grid_size div))%nat /\ Nat.iter k (fun a => next_hypercube a div) (map (fun _ => 0) div) = a /\
  forall k', (k' < Z.to_nat (grid_size div))%nat -> Nat.iter k' (fun a => next_hypercube a div) (map (fun _ => 0) div) = a -> k' = k.
Proof. exact C32_all_aux. Qed.
Print Assumptions C32_every_hypercube_once.

Example ex_grid : Forall (fun d => 1 <= d) [2; 1; 3] /\
  Nat.iter 4 (fun a => next_hypercube a [2; 1; 3]) [0; 0; 0] = [1; 0; 1] /\ in_grid [2; 1; 3] [1; 0; 1] /\ grid_index [2; 1; 3] [1; 0; 1] = 4.
Proof. repeat split; try reflexivity; repeat constructor; discriminate. Qed.

(** ** C33: edges of the nerve *)
Theorem C33_nerve_edges : forall div, Forall (fun d => 0 <= d) div -> let n := Z.to_nat (grid_size div) in
  exists Cs, nerve_hypercube_cover div = Ok (n, Cs) /\ NoDup (level n Cs 1) /\
  (forall s, In s (level n Cs 1) -> exists i j, s = [i; j] /\ (i < j < n)%nat) /\
  forall i j, (i < j)%nat -> In [i; j] (level n Cs 1) <-> adjacent div i j.
Proof. exact C33_aux. Qed.
Print Assumptions C33_nerve_edges.

Example ex_nerve : nerve_hypercube_cover [1; 3] = Ok (3%nat, [[[0; 1]; [1; 2]]; []; []; []]%nat).
Proof. vm_compute. reflexivity. Qed.

(** ** C34: all simplices of the nerve *)
Theorem C34_nerve_simplices : forall div, Forall (fun d => 0 <= d) div -> let n := Z.to_nat (grid_size div) in
  exists Cs, nerve_hypercube_cover div = Ok (n, Cs) /\ length Cs = (2 ^ length div)%nat /\
  (forall d, (1 <= d <= length Cs)%nat ->
    NoDup (level n Cs d) /\ forall s, In s (level n Cs d) <-> clique n (adjacent div) d s) /\
  level n Cs (2 ^ length div) = [] /\ forall d s, clique n (adjacent div) d s -> (d < 2 ^ length div)%nat.
Proof. exact C34_aux. Qed.
Print Assumptions C34_nerve_simplices.

Example ex_nerve_square : nerve_hypercube_cover [2; 2] =
  Ok (4%nat, [[[0; 1]; [0; 2]; [1; 2]; [0; 3]; [1; 3]; [2; 3]]; [[0; 1; 2]; [0; 1; 3]; [0; 2; 3]; [1; 2; 3]]; [[0; 1; 2; 3]]; []]%nat).
Proof. vm_compute. reflexivity. Qed.

(** ** C35: membership and coverage *)
Theorem C35_total : forall max_div overlap dim pc, 1 <= max_div -> rectangular dim pc -> spread dim pc ->
  exists pts IN n Cs, generate_cover (fun x => x) max_div overlap dim pc = Ok (pts, IN, (n, Cs)).
Proof. exact C35_total_aux. Qed.
Print Assumptions C35_total.

Theorem C35_membership : forall max_div overlap dim pc, 1 <= max_div -> rectangular dim pc -> spread dim pc ->
  forall pts IN n Cs, generate_cover (fun x => x) max_div overlap dim pc = Ok (pts, IN, (n, Cs)) ->
  exists mins side div, grid_of max_div dim pc mins side div /\ n = Z.to_nat (grid_size div) /\
    length (nth 0 IN []) = n /\ length (nth 0 pts []) = n /\
    forall a, in_grid div a -> let i := Z.to_nat (grid_index div a) in
      increasing (nth i (nth 0 IN []) []) /\
      (forall j, In j (nth i (nth 0 IN []) []) <-> (j < length pc)%nat /\ in_cube mins side overlap a (nth j pc [])) /\
      nth i (nth 0 pts []) [] = map (fun q => nth q pc []) (nth i (nth 0 IN []) []).
Proof. exact C35_membership_aux. Qed.
Print Assumptions C35_membership.

Theorem C35_coverage : forall max_div overlap dim pc, 1 <= max_div -> rectangular dim pc -> (0 < dim)%nat -> thick dim pc -> (0 <= overlap)%Q ->
  forall pts IN n Cs, generate_cover (fun x => x) max_div overlap dim pc = Ok (pts, IN, (n, Cs)) ->
  forall j, (j < length pc)%nat -> exists i, (i < n)%nat /\ In j (nth i (nth 0 IN []) []).
Proof. exact C35_coverage_aux. Qed.
Print Assumptions C35_coverage.

Theorem C35_flat_cloud : forall max_div overlap dim pc, 1 <= max_div -> rectangular dim pc -> spread dim pc ->
  forall d, (d < dim)%nat -> flat d pc ->
  forall pts IN n Cs, generate_cover (fun x => x) max_div overlap dim pc = Ok (pts, IN, (n, Cs)) -> n = 0%nat /\ nth 0 IN [] = [].
Proof. exact C35_flat_aux. Qed.
Print Assumptions C35_flat_cloud.

(** A single point (or several equal ones, or none) makes the code fail. *)
Theorem C35_point_error : forall max_div overlap dim pc, (0 < dim)%nat -> (forall d, (d < dim)%nat -> flat d pc) ->
  generate_cover (fun x => x) max_div overlap dim pc = Err ValueError.
Proof. exact C35_point_aux. Qed.
Print Assumptions C35_point_error.

(** The corners are stored in arrays of the type of the cloud.  For integer clouds they are
    truncated, and the last point may then belong to no hypercube. *)
Theorem C35_integer_cloud_refuted : exists max_div overlap dim pc pts IN n Cs j,
  1 <= max_div /\ rectangular dim pc /\ (0 < dim)%nat /\ thick dim pc /\ (0 <= overlap)%Q /\
  Forall (Forall (fun x => x == inject_Z (Qround.Qfloor x))%Q) pc /\
  generate_cover truncate max_div overlap dim pc = Ok (pts, IN, (n, Cs)) /\
  (j < length pc)%nat /\ forallb (fun l => negb (memn j l)) (nth 0 IN []) = true.
Proof.
  exists 2, 0%Q, 1%nat, [[0]; [1]; [5]]%Q. do 4 eexists. exists 2%nat.
  split; [discriminate|]. split; [intros pt [<-|[<-|[<-|[]]]]; reflexivity|]. split; [repeat constructor|].
  split; [intros [|d] Hd; [|inversion Hd; inversion H0]; exists [0%Q], [1%Q]; simpl; repeat split; auto|].
  split; [discriminate|]. split; [repeat constructor|]. split; [vm_compute; reflexivity|]. split; [repeat constructor|]. vm_compute. reflexivity.
Qed.
Print Assumptions C35_integer_cloud_refuted.

(** Corners below 0 are truncated upwards. *)
Example C35_integer_below : exists pts Cs, generate_cover truncate 2 0 1 [[-5]; [-3]; [-2]; [0]]%Q = Ok (pts, [[[0; 1; 2]; [2; 3]]; [[2]]; []]%nat, (2%nat, Cs)).
Proof. do 2 eexists. vm_compute. reflexivity. Qed.

Definition ex_cloud : list (list Q) := [[0; 0]; [1; 0]; [2; 1]; [4; 2]]%Q.
Lemma ex_cloud_rect : rectangular 2 ex_cloud.
Proof. intros pt [<-|[<-|[<-|[<-|[]]]]]; reflexivity. Qed.
Lemma ex_cloud_thick : thick 2 ex_cloud.
Proof.
  intros [|[|d]] Hd; [| |lia]; exists [0; 0]%Q, [4; 2]%Q; simpl; repeat split; auto.
Qed.
Example ex_cover : exists pts Cs, generate_cover (fun x => x) 2 1 2 ex_cloud = Ok (pts, [[[0; 1; 2]; [2; 3]]; [[2]]; []; []; []]%nat, (2%nat, Cs)).
Proof. do 2 eexists. vm_compute. reflexivity. Qed.
Example ex_flat : flat 1 [[0; 1]; [2; 1]]%Q /\ spread 2 [[0; 1]; [2; 1]]%Q /\
  generate_cover (fun x => x) 2 1 2 [[0; 1]; [2; 1]]%Q = Ok ([[]; []; []; []; []], [[]; []; []; []; []], (0%nat, [[]; []; []; []])).
Proof.
  split; [intros p q [<-|[<-|[]]] [<-|[<-|[]]]; reflexivity|]. split; [|vm_compute; reflexivity].
  exists 0%nat, [0; 1]%Q, [2; 1]%Q. split; [lia|]. split; [simpl; auto|]. split; [simpl; auto|]. reflexivity.
Qed.

(** ** C36: close points share a hypercube *)
Theorem C36_close_points : forall max_div overlap dim pc max_r, 1 <= max_div -> rectangular dim pc -> (0 < dim)%nat -> thick dim pc ->
  (max_r <= overlap)%Q ->
  forall pts IN n Cs, generate_cover (fun x => x) max_div overlap dim pc = Ok (pts, IN, (n, Cs)) ->
  forall s, s <> [] -> (forall v, In v s -> (v < length pc)%nat) ->
  (forall u v d, In u s -> In v s -> (d < dim)%nat -> (nth d (nth u pc []) 0 - nth d (nth v pc []) 0 < max_r)%Q) ->
  exists i, (i < n)%nat /\ forall v, In v s -> In v (nth i (nth 0 IN []) []).
Proof. exact C36_coord_aux. Qed.
Print Assumptions C36_close_points.

Theorem C36_rips_simplices : forall max_div overlap dim pc max_r, 1 <= max_div -> rectangular dim pc -> (0 < dim)%nat -> thick dim pc ->
  (0 <= max_r <= overlap)%Q ->
  forall pts IN n Cs, generate_cover (fun x => x) max_div overlap dim pc = Ok (pts, IN, (n, Cs)) ->
  forall d s, clique (length pc) (fun u v => (sqdist (nth u pc []) (nth v pc []) < max_r * max_r)%Q) d s ->
  exists i, (i < n)%nat /\ forall v, In v s -> In v (nth i (nth 0 IN []) []).
Proof. exact C36_rips_aux. Qed.
Print Assumptions C36_rips_simplices.

Example ex_clique : clique (length ex_cloud) (fun u v => (sqdist (nth u ex_cloud []) (nth v ex_cloud []) < (5 # 2) * (5 # 2))%Q) 2 [0; 1; 2]%nat.
Proof.
  split; [reflexivity|]. split; [repeat constructor|]. split.
  - intros v [<-|[<-|[<-|[]]]]; simpl; lia.
  - intros u v [<-|[<-|[<-|[]]]] [<-|[<-|[<-|[]]]] Huv; try lia; reflexivity.
Qed.

(** ** C37: intersections *)
Theorem C37_intersections : forall max_div overlap dim pc, 1 <= max_div -> rectangular dim pc -> spread dim pc ->
  forall pts IN n Cs, generate_cover (fun x => x) max_div overlap dim pc = Ok (pts, IN, (n, Cs)) ->
  length IN = S (length Cs) /\ length pts = S (length Cs) /\
  forall d, (d <= length Cs)%nat ->
    length (nth d IN []) = length (level n Cs d) /\ length (nth d pts []) = length (level n Cs d) /\
    forall j, (j < length (level n Cs d))%nat -> let s := nth j (level n Cs d) [] in
      increasing (nth j (nth d IN []) []) /\
      (forall q, In q (nth j (nth d IN []) []) <-> (forall v, In v s -> In q (nth v (nth 0 IN []) []))) /\
      nth j (nth d pts []) [] = map (fun q => nth q pc []) (nth j (nth d IN []) []).
Proof. exact C37_aux. Qed.
Print Assumptions C37_intersections.

(** ** C51: hypercubes with a common point span a simplex of the nerve *)
Theorem C51_nerve_sees_all_intersections : forall max_div overlap dim pc, 1 <= max_div -> rectangular dim pc ->
  (exists d p q, (d < dim)%nat /\ In p pc /\ In q pc /\
     (0 < nth d q 0 - nth d p 0)%Q /\ (overlap * inject_Z max_div < nth d q 0 - nth d p 0)%Q) ->
  forall pts IN n Cs, generate_cover (fun x => x) max_div overlap dim pc = Ok (pts, IN, (n, Cs)) ->
  forall d s j, length s = S d -> increasing s -> (forall v, In v s -> (v < n)%nat) ->
  (forall v, In v s -> In j (nth v (nth 0 IN []) [])) -> In s (level n Cs d).
Proof. exact C51_aux. Qed.
Print Assumptions C51_nerve_sees_all_intersections.

Example ex_small_overlap : exists d p q, (d < 2)%nat /\ In p ex_cloud /\ In q ex_cloud /\
  (0 < nth d q 0 - nth d p 0)%Q /\ (1 * inject_Z 2 < nth d q 0 - nth d p 0)%Q.
Proof. exists 0%nat, [0; 0]%Q, [4; 2]%Q. repeat split; simpl; auto. Qed.

(** If the overlap is as large as the side, hypercubes which are not adjacent may meet. *)
Theorem C51_large_overlap_refuted : exists max_div overlap dim pc pts IN n Cs s j,
  1 <= max_div /\ rectangular dim pc /\ (0 < dim)%nat /\ thick dim pc /\ (0 <= overlap)%Q /\
  generate_cover (fun x => x) max_div overlap dim pc = Ok (pts, IN, (n, Cs)) /\
  length s = 2%nat /\ increasing s /\ (forall v, In v s -> (v < n)%nat) /\
  (forall v, In v s -> In j (nth v (nth 0 IN []) [])) /\ ~ In s (level n Cs 1).
Proof.
  exists 3, 1%Q, 1%nat, [[0]; [3 # 2]; [3]]%Q. do 4 eexists. exists [0; 2]%nat, 1%nat.
  split; [discriminate|]. split; [intros pt [<-|[<-|[<-|[]]]]; reflexivity|]. split; [repeat constructor|].
  split; [intros [|d] Hd; [|inversion Hd; inversion H0]; exists [0%Q], [3%Q]; simpl; repeat split; auto|].
  split; [discriminate|]. split; [vm_compute; reflexivity|]. split; [reflexivity|]. split; [repeat constructor|].
  split; [intros v [<-|[<-|[]]]; repeat constructor|]. split.
  - intros v [<-|[<-|[]]]; vm_compute; tauto.
  - vm_compute. intuition congruence.
Qed.
Print Assumptions C51_large_overlap_refuted.
