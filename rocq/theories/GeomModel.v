(** Geometric kernels over the reals: rigid motions (traceon/mesher.py:24-135), triangle and
    line kernels (traceon/backend/utilities_3d.c, utilities_2d.c) and the outwardness tests
    (mesher.py:676-700).  Floating point rounding is not modelled. *)
From Coq Require Import Reals.
From Verif Require Import Base OrientModel Vec.
Local Open Scope R_scope.

(** A comparison [x == 0.] of the code. *)
Definition Req0 (x : R) : bool := if Req_EM_T x 0 then true else false.
Definition Rgt0 (x : R) : bool := if Rlt_dec 0 x then true else false.

(** mesher.py:44-64 move *)
Definition move (d : vec3) (p : vec3) : vec3 := vadd p d.

(** A 3x3 matrix applied to a vector; rows. *)
Definition mat := (vec3 * vec3 * vec3)%type.
Definition mat_vec (m : mat) (p : vec3) : vec3 :=
  let '(a, b, c) := m in V3 (dot a p) (dot b p) (dot c p).

(** mesher.py:92-103: the matrix, [None] when no branch assigns it *)
Definition rotation_matrix (Rx Ry Rz : R) : option mat :=
  if negb (Req0 Rx) then
    Some (V3 1 0 0, V3 0 (cos Rx) (- sin Rx), V3 0 (sin Rx) (cos Rx))
  else if negb (Req0 Ry) then
    Some (V3 (cos Ry) 0 (sin Ry), V3 0 1 0, V3 (- sin Ry) 0 (cos Ry))
  else if negb (Req0 Rz) then
    Some (V3 (cos Rz) (- sin Rz) 0, V3 (sin Rz) (cos Rz) 0, V3 0 0 1)
  else None.

(** mesher.py:66-105 rotate: the point map handed to [map_points].  Using the unassigned
    local [matrix] raises NameError at the moment a point is mapped. *)
Definition rotate (Rx Ry Rz : R) (origin : vec3) : result (vec3 -> result vec3) :=
  _ <- py_assert (2 <=? b2n (Req0 Rx) + b2n (Req0 Ry) + b2n (Req0 Rz))%nat ;;
  Ok (fun p => match rotation_matrix Rx Ry Rz with
               | Some m => Ok (vadd origin (mat_vec m (vsub p origin)))
               | None => Err NameError
               end).

(** mesher.py:107-134 *)
Definition mirror_xz (p : vec3) : vec3 := V3 (vx p) (- vy p) (vz p).
Definition mirror_yz (p : vec3) : vec3 := V3 (- vx p) (vy p) (vz p).
Definition mirror_xy (p : vec3) : vec3 := V3 (vx p) (vy p) (- vz p).

(** utilities_3d.c:88-97 triangle_area, three_d.c:300-318 triangle_areas *)
Definition triangle_area (v0 v1 v2 : vec3) : R :=
  norm (cross (vsub v1 v0) (vsub v2 v0)) / 2.

(** utilities_3d.c:99-115 normal_3d, before and after division by the length *)
Definition raw_normal_3d (t0 t1 t2 : vec3) : vec3 :=
  V3 ((vy t1 - vy t0) * (vz t2 - vz t0) - (vy t2 - vy t0) * (vz t1 - vz t0))
     ((vx t2 - vx t0) * (vz t1 - vz t0) - (vx t1 - vx t0) * (vz t2 - vz t0))
     ((vx t1 - vx t0) * (vy t2 - vy t0) - (vx t2 - vx t0) * (vy t1 - vy t0)).
Definition normal_3d (t0 t1 t2 : vec3) : vec3 :=
  let n := raw_normal_3d t0 t1 t2 in
  let length := norm n in
  V3 (vx n / length) (vy n / length) (vz n / length).

(** utilities_3d.c:117-131 position_and_jacobian_3d *)
Definition position_3d (alpha beta : R) (t0 t1 t2 : vec3) : vec3 :=
  let v1 := vsub t1 t0 in let v2 := vsub t2 t0 in
  V3 (vx t0 + alpha * vx v1 + beta * vx v2)
     (vy t0 + alpha * vy v1 + beta * vy v2)
     (vz t0 + alpha * vz v1 + beta * vz v2).
Definition jacobian_3d (t0 t1 t2 : vec3) : R := 2 * triangle_area t0 t1 t2.

(** utilities_2d.c:20-32 normal_2d (two-component points given as x, y) *)
Definition norm_2d (x y : R) : R := sqrt (x * x + y * y).
Definition normal_2d (x1 y1 x2 y2 : R) : R * R :=
  let tx := x2 - x1 in let ty := y2 - y1 in
  let nx := ty in let ny := - tx in
  let length := norm_2d nx ny in
  (nx / length, ny / length).

(** mesher.py:692-700 _are_line_normals_pointing_outwards: the term of one line from [a] to [b]
    ([mid_x * normals\[:,0\] * length]) and the sum.  Vertices are given by position. *)
Definition line_term (a b : vec3) : R :=
  (vx a + vx b) / 2 * fst (normal_2d (vx a) (vz a) (vx b) (vz b)) * norm (vsub b a).

Fixpoint Rsum (l : list R) : R := match l with [] => 0 | x :: t => x + Rsum t end.

Definition line_ends (pos : nat -> vec3) (r : row) : vec3 * vec3 :=
  match r with a :: b :: _ => (pos a, pos b) | _ => (vzero, vzero) end.
Definition line_outward_sum (pos : nat -> vec3) (els : list row) : R :=
  Rsum (map (fun r => let '(a, b) := line_ends pos r in line_term a b) els).
Definition line_outwards (pos : nat -> vec3) (els : list row) : bool :=
  Rgt0 (line_outward_sum pos els).

(** mesher.py:676-690 _are_triangle_normals_pointing_outwards *)
Definition triangle_term (v0 v1 v2 : vec3) : R :=
  let mid_x := (vx v0 + vx v1 + vx v2) / 3 in
  let n := cross (vsub v1 v0) (vsub v2 v0) in
  let double_area := norm n in
  mid_x * (vx n / double_area) * double_area / 2.
Definition tri_corners (pos : nat -> vec3) (r : row) : vec3 * vec3 * vec3 :=
  match r with a :: b :: c :: _ => (pos a, pos b, pos c) | _ => (vzero, vzero, vzero) end.
Definition triangle_outward_sum (pos : nat -> vec3) (els : list row) : R :=
  Rsum (map (fun r => let '(a, b, c) := tri_corners pos r in triangle_term a b c) els).
Definition triangle_outwards (pos : nat -> vec3) (els : list row) : bool :=
  Rgt0 (triangle_outward_sum pos els).

(** utilities_2d.c:57-76 position_and_jacobian_radial: the cubic line element in the (x, z)
    plane; only x and z of the points are used. *)
Definition cubic_coord (alpha w1 w2 w3 w4 : R) : R :=
  let a2 := alpha ^ 2 in let a3 := alpha ^ 3 in
  (a2 * (9*w4 - 9*w3 - 9*w2 + 9*w1) + a3 * (9*w4 - 27*w3 + 27*w2 - 9*w1)
     - w4 + alpha * (- w4 + 27*w3 - 27*w2 + w1) + 9*w3 + 9*w2 - w1) / 16.
(** the derivative as written in the Jacobian (line 75) and in higher_order_normal_radial *)
Definition cubic_deriv16 (alpha w1 w2 w3 w4 : R) : R :=
  2*alpha*(9*w4 - 9*w3 - 9*w2 + 9*w1) + 3*alpha^2*(9*w4 - 27*w3 + 27*w2 - 9*w1)
    - w4 + 27*w3 - 27*w2 + w1.
Definition position_radial (alpha : R) (v1 v2 v3 v4 : vec3) : R * R :=
  (cubic_coord alpha (vx v1) (vx v2) (vx v3) (vx v4),
   cubic_coord alpha (vz v1) (vz v2) (vz v3) (vz v4)).
Definition jacobian_radial (alpha : R) (v1 v2 v3 v4 : vec3) : R :=
  1 / 16 * sqrt (cubic_deriv16 alpha (vz v1) (vz v2) (vz v3) (vz v4) ^ 2
               + cubic_deriv16 alpha (vx v1) (vx v2) (vx v3) (vx v4) ^ 2).
(** utilities_2d.c:34-55 higher_order_normal_radial *)
Definition higher_order_normal_radial (alpha : R) (v1 v2 v3 v4 : vec3) : R * R :=
  normal_2d 0 0 (cubic_deriv16 alpha (vx v1) (vx v2) (vx v3) (vx v4) / 16)
                (cubic_deriv16 alpha (vz v1) (vz v2) (vz v3) (vz v4) / 16).

(** mesher.py:507-529 _lines_to_higher_order, for the points at one and two thirds [p13], [p23]
    of any kind of point. The final [assert allclose] compares points with themselves. *)
Definition lines_to_higher_order {P} (p13 p23 : P -> P -> P) (points : list P) (elements : list row)
    : result (list P * list row) :=
  ends <- mapM (fun r => match r with [v0; v1] => Ok (v0, v1) | _ => Err ValueError end) elements ;;
  p2 <- mapM (fun e => a <- np_get points (fst e) ;; b <- np_get points (snd e) ;; Ok (p13 a b)) ends ;;
  p3 <- mapM (fun e => a <- np_get points (fst e) ;; b <- np_get points (snd e) ;; Ok (p23 a b)) ends ;;
  let n := length points in let ne := length elements in
  Ok ((points ++ p2 ++ p3)%list,
      map2 (fun e i => [fst e; snd e; n + i; n + ne + i]%nat) ends (arange ne)).
Definition p13_R (a b : vec3) : vec3 := vadd a (vscale (1/3) (vsub b a)).
Definition p23_R (a b : vec3) : vec3 := vadd a (vscale (2/3) (vsub b a)).
