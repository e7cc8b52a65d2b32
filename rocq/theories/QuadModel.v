(** Integration rules of the C backend: quadrature buffers (backend/tracing.c:253-282,
    backend/radial.c:224-247) and the adaptive Gauss-Kronrod integrator (backend/kronrod.c). *)
From Coq Require Import Reals QArith Qreals.
From Verif Require Import Base Vec GeomModel Tables.
Local Open Scope R_scope.

(** A rule with the given nodes and weights applied to [f]. *)
Definition rule (nodes weights : list Q) (f : R -> R) : R :=
  Rsum (map2 (fun x w => Q2R w * f (Q2R x)) nodes weights).

(** The sums over [k < N_QUAD_2D] with GAUSS_QUAD_POINTS and GAUSS_QUAD_WEIGHTS
    (e.g. backend/radial.c:136-145). *)
Definition gauss16 (f : R -> R) : R := rule gauss_points gauss_weights f.

(** A sum over the triangle rule of a function of the two barycentric coordinates. *)
Fixpoint map3 {A B C D} (f : A -> B -> C -> D) (a : list A) (b : list B) (c : list C) : list D :=
  match a, b, c with
  | x :: a', y :: b', z :: c' => f x y z :: map3 f a' b' c'
  | _, _, _ => []
  end.
Definition triangle12 (f : R -> R -> R) : R :=
  Rsum (map3 (fun b1 b2 w => Q2R w * f (Q2R b1) (Q2R b2)) quad_b1 quad_b2 quad_weights).

(** backend/tracing.c:263-266: the area as written there *)
Definition buffer_area (t0 t1 t2 : vec3) : R :=
  1 / 2 * sqrt (
    ((vy t1 - vy t0) * (vz t2 - vz t0) - (vy t2 - vy t0) * (vz t1 - vz t0)) ^ 2 +
    ((vx t2 - vx t0) * (vz t1 - vz t0) - (vx t1 - vx t0) * (vz t2 - vz t0)) ^ 2 +
    ((vx t1 - vx t0) * (vy t2 - vy t0) - (vx t2 - vx t0) * (vy t1 - vy t0)) ^ 2).

(** backend/tracing.c:253-282 fill_jacobian_buffer_3d, one triangle: [jacobian_buffer\[i\]] and
    [pos_buffer\[i\]] *)
Definition jacobian_buffer_3d (t0 t1 t2 : vec3) : list R :=
  map (fun w => 2 * Q2R w * buffer_area t0 t1 t2) quad_weights.
Definition position_buffer_3d (t0 t1 t2 : vec3) : list vec3 :=
  map2 (fun b1 b2 =>
          V3 (vx t0 + Q2R b1 * (vx t1 - vx t0) + Q2R b2 * (vx t2 - vx t0))
             (vy t0 + Q2R b1 * (vy t1 - vy t0) + Q2R b2 * (vy t2 - vy t0))
             (vz t0 + Q2R b1 * (vz t1 - vz t0) + Q2R b2 * (vz t2 - vz t0))) quad_b1 quad_b2.

(** backend/radial.c:224-247 fill_jacobian_buffer_radial, one line whose row of points is
    [p0 p1 p2 p3]: the element runs p0, p2, p3, p1. *)
Definition jacobian_buffer_radial (p0 p1 p2 p3 : vec3) : list R :=
  map2 (fun x w => Q2R w * jacobian_radial (Q2R x) p0 p2 p3 p1) gauss_points gauss_weights.
Definition position_buffer_radial (p0 p1 p2 p3 : vec3) : list (R * R) :=
  map (fun x => position_radial (Q2R x) p0 p2 p3 p1) gauss_points.

(** backend/kronrod.c:51-63: the two rules on the interval with centre [c] and half width [h].
    The C loops add [h * w * (f(c-x) + f(c+x))] for the nodes after the first. *)
Definition symmetric_rule (nodes weights : list Q) (f : R -> R) (c h : R) : R :=
  match nodes, weights with
  | _ :: ns, w0 :: ws =>
      fold_left (fun acc nw => let x := h * Q2R (fst nw) in
                               acc + h * Q2R (snd nw) * (f (c - x) + f (c + x)))
                (combine ns ws) (h * Q2R w0 * f c)
  | _, _ => 0
  end.
Definition g7 := symmetric_rule g7_nodes g7_weights.
Definition k15 := symmetric_rule k15_nodes k15_weights.

(** backend/kronrod.c:65-72: the acceptance test *)
Definition Rleb (a b : R) : bool := if Rle_dec a b then true else false.
Definition Rltb (a b : R) : bool := if Rlt_dec a b then true else false.
Definition accept (f : R -> R) (abs_tol rel_tol c h : R) : bool :=
  let error := Rabs (k15 f c h - g7 f c h) in
  Rleb error abs_tol || Rleb error (rel_tol * Rabs (k15 f c h)).

(** backend/kronrod.c:43-77 kronrod_adaptive.  One unit of fuel is one round of the [while]. *)
Fixpoint kronrod_loop (fuel : nat) (f : R -> R) (b abs_tol rel_tol result start end_ : R) : option R :=
  match fuel with
  | O => None
  | S fuel' =>
      if Rltb start b then
        let c := (start + end_) / 2 in
        let h := (end_ - start) / 2 in
        if accept f abs_tol rel_tol c h
        then kronrod_loop fuel' f b abs_tol rel_tol (result + k15 f c h) end_ b
        else kronrod_loop fuel' f b abs_tol rel_tol result start c
      else Some result
  end.
Definition kronrod_adaptive (fuel : nat) (f : R -> R) (a b abs_tol rel_tol : R) : option R :=
  kronrod_loop fuel f b abs_tol rel_tol 0 a b.
