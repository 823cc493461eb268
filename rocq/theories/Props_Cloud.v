(** * Property C49: the example point clouds

    Coordinates are real numbers; the theorems say nothing about rounding.  [in_unit rand]: every draw of
    [np.random.rand()] is in [0, 1). *)
From Coq Require Import Reals List Arith Lra Lia.
From Verif Require Import Base Cloud_model Spec_Cloud Cloud_props.
Import ListNotations.
Local Open Scope R_scope.

Theorem C49_circle : forall n r, (0 < n)%nat ->
  exists pts, circle n r = Ok pts /\ length pts = n /\ forall v, In v pts -> on_circle r v.
Proof. exact circle_aux. Qed.
Print Assumptions C49_circle.
(** The points of the circle are distinct. *)
Theorem C49_circle_distinct : forall n r pts, 0 < r -> circle n r = Ok pts -> NoDup pts.
Proof. exact circle_distinct_aux. Qed.
Print Assumptions C49_circle_distinct.
(** No points: a division by zero instead of an empty array. *)
Theorem C49_circle_refuted : exists n r, circle n r = Err ZeroDivisionError.
Proof. exact (ex_intro _ 0%nat (ex_intro _ 1 eq_refl)). Qed.
Print Assumptions C49_circle_refuted.
Example C49_circle_case : circle 1 2 = Ok [[2; 0]].
Proof. unfold circle. cbn [seq map INR]. rewrite Rmult_0_l, cos_0, sin_0. repeat f_equal; ring. Qed.

Theorem C49_random_circle : forall n r e c rand, in_unit rand -> 0 <= r -> 0 <= e ->
  length (random_circle n r e c rand) = n /\ forall v, In v (random_circle n r e c rand) -> in_annulus c r (r * (1 + e)) v.
Proof. exact random_circle_aux. Qed.
Print Assumptions C49_random_circle.
Example C49_random_circle_case : in_unit (fun n => if Nat.odd n then / 2 else 0) /\
  random_circle 1 2 1 (5, 7) (fun n => if Nat.odd n then / 2 else 0) = [[8; 7]].
Proof.
  split; [intros n; destruct (Nat.odd n); lra|]. unfold random_circle. cbn. rewrite !Rmult_0_l, cos_0, sin_0. repeat f_equal; field.
Qed.

(** What [ball] returns is inside the ball.  Missing: that it returns, which is proved below in dimension at most 3 for a
    positive radius, and is false in general. *)
Theorem C49_ball_partial : forall f n r dim rand pts, ball f n r dim rand = Ok pts ->
  length pts = n /\ forall v, In v pts -> in_open_ball dim r v.
Proof. exact ball_aux. Qed.
Print Assumptions C49_ball_partial.
(** In dimension at most 3 the first draw is accepted. *)
Theorem C49_ball_terminates : forall f n r dim rand, in_unit rand -> 0 < r -> (dim <= 3)%nat ->
  exists pts, ball (S f) n r dim rand = Ok pts.
Proof. exact ball_total_aux. Qed.
Print Assumptions C49_ball_terminates.
(** The points never leave the cube of side [r] around the origin: the rest of the ball is not sampled. *)
Theorem C49_ball_small : forall f n r dim rand pts, in_unit rand -> ball f n r dim rand = Ok pts ->
  forall v, In v pts -> forall x, In x v -> - (r / 2) <= x <= r / 2.
Proof. exact ball_small_aux. Qed.
Print Assumptions C49_ball_small.
(** A radius that is not positive makes the loop run for ever. *)
Theorem C49_ball_radius : forall f n r dim rand, r <= 0 -> (0 < n)%nat -> ball f n r dim rand = Err OutOfFuel.
Proof. exact ball_never_aux. Qed.
Print Assumptions C49_ball_radius.
(** In dimension 4 there are draws that are rejected for ever. *)
Theorem C49_ball_rejects : forall f n, (0 < n)%nat -> ball f n 1 4 (fun _ => 0) = Err OutOfFuel.
Proof. exact ball_dim4_aux. Qed.
Print Assumptions C49_ball_rejects.

(** [random_sphere] returns unit vectors whatever the radius, when a coordinate of the draw is not 0; otherwise all
    coordinates are NaN. *)
Theorem C49_random_sphere : forall n r dim rand, length (random_sphere n r dim rand) = n /\
  forall k v, (k < n)%nat -> nth k (random_sphere n r dim rand) [] = v ->
  ((exists d, (d < dim)%nat /\ (rand (k * dim + d)%nat - / 2) * r <> 0) -> exists w, v = map Some w /\ on_sphere dim 1 w) /\
  ((forall d, (d < dim)%nat -> (rand (k * dim + d)%nat - / 2) * r = 0) -> v = repeat None dim).
Proof. exact sphere_aux. Qed.
Print Assumptions C49_random_sphere.
(** The documented radius is not obtained. *)
Theorem C49_sphere_radius_refuted : exists r rand, in_unit rand /\ 0 < r /\
  random_sphere 1 r 1 rand = [[Some (-1)]] /\ ~ on_sphere 1 r [-1].
Proof. exact sphere_radius_aux. Qed.
Print Assumptions C49_sphere_radius_refuted.

Theorem C49_random_cube : forall n dim rand, in_unit rand ->
  length (random_cube n dim rand) = n /\ forall v, In v (random_cube n dim rand) -> in_cube dim (/ 2) v.
Proof. exact random_cube_aux. Qed.
Print Assumptions C49_random_cube.
Example C49_random_cube_case : random_cube 1 2 (fun n => INR n / 4) = [[- / 2; - / 4]].
Proof. unfold random_cube. cbn. f_equal. f_equal; [field|f_equal; field]. Qed.

(** The nodes of the grids are distinct, and symmetric about the origin. *)
Theorem C49_grid : forall h w, length (grid h w) = (h * w)%nat /\ NoDup (grid h w) /\
  forall v, In v (grid h w) <-> exists i j, (i < h)%nat /\ (j < w)%nat /\ v = [INR i - (INR h - 1) / 2; INR j - (INR w - 1) / 2].
Proof. exact grid_aux. Qed.
Print Assumptions C49_grid.
Theorem C49_grid_centred : forall h w v, In v (grid h w) -> In (map Ropp v) (grid h w).
Proof. exact grid_centred_aux. Qed.
Print Assumptions C49_grid_centred.
Theorem C49_grid_tridimensional : forall h w d,
  length (grid_tridimensional h w d) = (h * w * d)%nat /\ NoDup (grid_tridimensional h w d) /\
  forall v, In v (grid_tridimensional h w d) <-> exists i j k, (i < h)%nat /\ (j < w)%nat /\ (k < d)%nat /\
    v = [INR i - (INR h - 1) / 2; INR j - (INR w - 1) / 2; INR k - (INR d - 1) / 2].
Proof. exact grid3_aux. Qed.
Print Assumptions C49_grid_tridimensional.
Theorem C49_grid3_centred : forall h w d v, In v (grid_tridimensional h w d) -> In (map Ropp v) (grid_tridimensional h w d).
Proof. exact grid3_centred_aux. Qed.
Print Assumptions C49_grid3_centred.
Example C49_grid_case : grid 2 1 = [[- / 2; 0]; [/ 2; 0]].
Proof. unfold grid. cbn. f_equal; [|f_equal]; (f_equal; [field|f_equal; field]). Qed.

Theorem C49_torus : forall n r rr rand, 0 <= r -> r <= rr ->
  exists pts, torus3D n r rr rand = Ok pts /\ length pts = n /\ forall v, In v pts -> on_torus r rr v.
Proof. exact torus_aux. Qed.
Print Assumptions C49_torus.
Theorem C49_torus_error : forall n r rr rand, rr < r -> torus3D n r rr rand = Err ValueError.
Proof. exact torus_error_aux. Qed.
Print Assumptions C49_torus_error.
Example C49_torus_case : torus3D 1 1 3 (fun _ => 0) = Ok [[4; 0; 0]].
Proof.
  unfold torus3D. destruct (Rgt_dec 1 3) as [X|_]; [lra|]. cbn [seq map]. rewrite !Rmult_0_l, cos_0, sin_0. repeat f_equal; ring.
Qed.
