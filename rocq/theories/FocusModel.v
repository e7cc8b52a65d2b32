(** traceon/focus.py over the reals. *)
From Coq Require Import Reals.
From Verif Require Import Base Vec GeomModel FieldModel TracingModel.
Local Open Scope R_scope.

(** focus.py:29-38: the rows of the linear system and the right-hand sides, for the final samples of the
    trajectories.  A row (a, b, c) belongs to the unknowns (z, x, y). *)
Definition angle_x (s : state) : R := vx (s_vel s) / vz (s_vel s).
Definition angle_y (s : state) : R := vy (s_vel s) / vz (s_vel s).
Definition focus_rows (rays : list state) : list (R * R * R * R) :=
  map (fun s => (- angle_x s, 1, 0, vx (s_pos s) - vz (s_pos s) * angle_x s)) rays ++
  map (fun s => (- angle_y s, 0, 1, vy (s_pos s) - vz (s_pos s) * angle_y s)) rays.
Definition residual (z x y : R) (row : R * R * R * R) : R := let '(a, b, c, d) := row in a * z + b * x + c * y - d.
Definition residuals (rows : list (R * R * R * R)) (z x y : R) : R := Rsum (map (fun row => residual z x y row ^ 2) rows).
(** np.linalg.lstsq by its documentation: a vector with the least sum of squares, and among those one of
    least norm *)
Definition lstsq (rows : list (R * R * R * R)) (z x y : R) : Prop :=
  forall z' x' y', residuals rows z x y <= residuals rows z' x' y' /\
    (residuals rows z x y = residuals rows z' x' y' -> z ^ 2 + x ^ 2 + y ^ 2 <= z' ^ 2 + x' ^ 2 + y' ^ 2).
(** focus.py:9-47 focus_position can return [p].  Every trajectory has a last sample (else IndexError) with a
    velocity along z (else the system is not finite). *)
Definition final_samples (positions : list (list state)) : result (list state) := mapM (fun l => np_get l (length l - 1)) positions.
Definition focus_position (positions : list (list state)) (p : vec3) : Prop :=
  exists rays, final_samples positions = Ok rays /\ Forall (fun s => vz (s_vel s) <> 0) rays /\ lstsq (focus_rows rays) (vz p) (vx p) (vy p).
