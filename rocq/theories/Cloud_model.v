(** * Model of the example point clouds, [permaviss/sample_point_clouds/examples.py]

    Coordinates are real numbers: rounding is not modelled.  [rand : nat -> R] lists the values of the successive calls
    of [np.random.rand()]; seeding chooses another list. *)
From Coq Require Import Reals List Arith.
From Verif Require Import Base.
Import ListNotations.
Local Open Scope R_scope.

Definition point := list R.

(** [np.linalg.norm], examples.py:135 and 168 *)
Definition norm (v : point) : R := sqrt (fold_right (fun x s => x * x + s) 0 v).

(** examples.py:47-70, [circle].  For no points the step is a division of a float by 0. *)
Definition circle (no_points : nat) (radius : R) : res (list point) :=
  match no_points with
  | O => Err ZeroDivisionError
  | _ =>
      let step := 2 * PI / INR no_points in
      Ok (map (fun n => [radius * cos (INR n * step); radius * sin (INR n * step)]) (seq 0 no_points))
  end.

(** examples.py:73-104, [random_circle]; two draws per point. *)
Definition random_circle (no_points : nat) (radius epsilon : R) (center : R * R) (rand : nat -> R) : list point :=
  map (fun n =>
    let random_angle := rand (2 * n)%nat * 2 * PI in
    let random_rad := radius * (1 + rand (2 * n + 1)%nat * epsilon) in
    [fst center + random_rad * cos random_angle; snd center + random_rad * sin random_angle]) (seq 0 no_points).

(** examples.py:130-132 and 163-165: a point of the cube of side [radius] from the draws at [pos], [pos + 1], ... *)
Definition cube_point (radius : R) (dim : nat) (rand : nat -> R) (pos : nat) : point :=
  map (fun d => (rand (pos + d)%nat - / 2) * radius) (seq 0 dim).

(** examples.py:128-137: redraw until the point is in the ball; returns the point and the next draw. *)
Fixpoint ball_point (fuel : nat) (radius : R) (dim : nat) (rand : nat -> R) (pos : nat) : res (point * nat) :=
  match fuel with
  | O => Err OutOfFuel
  | S f =>
      let v := cube_point radius dim rand pos in
      if Rlt_dec (norm v) radius then Ok (v, (pos + dim)%nat) else ball_point f radius dim rand (pos + dim)
  end.

(** examples.py:107-139, [ball] *)
Definition ball (fuel no_points : nat) (radius : R) (dim : nat) (rand : nat -> R) : res (list point) :=
  '(pts, _) <- foldM (fun st _ => '(v, pos) <- ball_point fuel radius dim rand (snd st) ;; Ok (fst st ++ [v], pos))
                 (seq 0 no_points) ([], 0%nat) ;;
  Ok pts.

(** Division of floats: [None] is NaN, the value of 0/0; the numerators are 0 when the norm is.  examples.py:170 *)
Definition fdiv (x y : R) : option R := if Req_EM_T y 0 then None else Some (x / y).

(** examples.py:142-174, [random_sphere] *)
Definition random_sphere (no_points : nat) (radius : R) (dim : nat) (rand : nat -> R) : list (list (option R)) :=
  map (fun n => let v := cube_point radius dim rand (n * dim) in map (fun x => fdiv x (norm v)) v) (seq 0 no_points).

(** examples.py:177-202, [random_cube] *)
Definition random_cube (no_points dim : nat) (rand : nat -> R) : list point :=
  map (fun n => map (fun d => rand (n * dim + d)%nat - / 2) (seq 0 dim)) (seq 0 no_points).

(** examples.py:205-228, [grid] *)
Definition grid (hdiv vdiv : nat) : list point :=
  let hshift := INR hdiv / 2 - / 2 in
  let vshift := INR vdiv / 2 - / 2 in
  flat_map (fun i => map (fun j => [INR i - hshift; INR j - vshift]) (seq 0 vdiv)) (seq 0 hdiv).

(** examples.py:231-259, [grid_tridimensional] *)
Definition grid_tridimensional (hdiv vdiv ddiv : nat) : list point :=
  let hshift := INR hdiv / 2 - / 2 in
  let vshift := INR vdiv / 2 - / 2 in
  let dshift := INR ddiv / 2 - / 2 in
  flat_map (fun i => flat_map (fun j => map (fun k => [INR i - hshift; INR j - vshift; INR k - dshift]) (seq 0 ddiv))
    (seq 0 vdiv)) (seq 0 hdiv).

(** examples.py:262-290, [torus3D]; two draws per point. *)
Definition torus3D (no_points : nat) (min_rad max_rad : R) (rand : nat -> R) : res (list point) :=
  if Rgt_dec min_rad max_rad then Err ValueError
  else Ok (map (fun i =>
    let theta := rand (2 * i)%nat * 2 * PI in
    let alpha := rand (2 * i + 1)%nat * 2 * PI in
    [(max_rad + min_rad * cos alpha) * cos theta; (max_rad + min_rad * cos alpha) * sin theta; min_rad * sin alpha])
    (seq 0 no_points)).
