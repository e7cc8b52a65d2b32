(** Potential and flux of a uniformly charged triangle (backend/triangle.c:1-186) over the reals.
    [integrate f lo hi] is kronrod_adaptive (backend/kronrod.c:43-77, modelled in QuadModel); it is a
    parameter here because the C loop need not end.  The assertion of normalize_3d is not modelled:
    theorems assume triangles that are not degenerate. *)
From Coq Require Import Reals.
From Verif Require Import Base Vec GeomModel.
Local Open Scope R_scope.

(** utilities_3d.c:66-73 normalize_3d *)
Definition normalize_3d (v : vec3) : vec3 :=
  let length := norm v in V3 (vx v / length) (vy v / length) (vz v / length).

(** triangle.c:23-32 struct _normalized_triangle, without the normal *)
Record normalized_triangle := mknt { nt_x0 : R; nt_y0 : R; nt_a : R; nt_b : R; nt_c : R; nt_z : R }.

(** triangle.c:54-64, 142-152: the axes *)
Definition x_axis (v0 v1 : vec3) : vec3 := normalize_3d (vsub v1 v0).
Definition z_axis (v0 v1 v2 : vec3) : vec3 := normalize_3d (cross (vsub v1 v0) (vsub v2 v0)).
Definition y_axis (v0 v1 v2 : vec3) : vec3 := cross (z_axis v0 v1 v2) (x_axis v0 v1).
(** triangle.c:51-74, 139-164 *)
Definition normalized (v0 v1 v2 target : vec3) : normalized_triangle :=
  let to_v0 := vsub v0 target in let vec2 := vsub v2 v0 in
  mknt (dot to_v0 (x_axis v0 v1)) (dot to_v0 (y_axis v0 v1 v2)) (norm (vsub v1 v0))
       (dot vec2 (x_axis v0 v1)) (dot vec2 (y_axis v0 v1 v2)) (- dot (z_axis v0 v1 v2) to_v0).

(** triangle.c:36-37, 118-119 *)
Definition nt_xmin (t : normalized_triangle) (y : R) : R := nt_x0 t + y / nt_c t * nt_b t.
Definition nt_xmax (t : normalized_triangle) (y : R) : R := nt_x0 t + nt_a t + y / nt_c t * (nt_b t - nt_a t).

(** triangle.c:34-48 _potential_integrand; asinh is arcsinh and log is ln *)
Definition potential_integrand (t : normalized_triangle) (y : R) : R :=
  let xmin := nt_xmin t y in let xmax := nt_xmax t y in
  let denom := sqrt ((y + nt_y0 t) * (y + nt_y0 t) + nt_z t * nt_z t) in
  if Rlt_dec denom 1e-12 then ln (Rabs xmax) - ln (Rabs xmin)
  else arcsinh (xmax / denom) - arcsinh (xmin / denom).
(** triangle.c:50-77 potential_triangle *)
Definition potential_triangle (integrate : (R -> R) -> R -> R -> R) (v0 v1 v2 target : vec3) : R :=
  let t := normalized v0 v1 v2 target in integrate (potential_integrand t) 0 (nt_c t).

(** triangle.c:111-136 _flux_integrand *)
Definition flux_integrand (t : normalized_triangle) (normal : vec3) (y : R) : R :=
  let y0 := nt_y0 t in let z := nt_z t in
  let xmin := nt_xmin t y in let xmax := nt_xmax t y in
  let z2 := z * z in let xmin2 := xmin * xmin in let yy02 := (y + y0) * (y + y0) in let xmax2 := xmax * xmax in
  let r2 := z2 + yy02 in
  let flux0 := 1 / sqrt (r2 + xmax2) - 1 / sqrt (r2 + xmin2) in
  let '(flux1, flux2) :=
    if Rlt_dec (Rabs r2) 1e-9 then
      (((xmin2 - xmax2) * y0 + (xmin2 - xmax2) * y) / (2 * xmax2 * xmin2), - ((xmin2 - xmax2) * z) / (2 * xmax2 * xmin2))
    else
      let denom_max := r2 * sqrt (r2 + xmax2) in let denom_min := r2 * sqrt (r2 + xmin2) in
      (- (xmax * (y + y0) / denom_max) + xmin * (y + y0) / denom_min, xmax * z / denom_max - xmin * z / denom_min) in
  dot normal (V3 flux0 flux1 flux2).
(** triangle.c:138-170 flux_triangle *)
Definition flux_triangle (integrate : (R -> R) -> R -> R -> R) (v0 v1 v2 target normal : vec3) : R :=
  let t := normalized v0 v1 v2 target in
  integrate (flux_integrand t (V3 (dot (x_axis v0 v1) normal) (dot (y_axis v0 v1 v2) normal) (dot (z_axis v0 v1 v2) normal))) 0 (nt_c t).

(** triangle.c:79-103 self_potential_triangle_v0 *)
Definition self_potential_triangle_v0 (v0 v1 v2 : vec3) : R :=
  let a := norm (vsub v1 v0) in
  let b := dot (vsub v2 v0) (x_axis v0 v1) in let c := dot (vsub v2 v0) (y_axis v0 v1 v2) in
  let alpha := b / c in let beta := (b - a) / c in
  - (- a * arcsinh ((beta * beta * c + c + beta * a) / a) +
     sqrt (beta * beta + 1) * (c * arcsinh ((beta * c + a) / c) - arcsinh alpha * c) +
     arcsinh beta * a) / sqrt (beta * beta + 1).
(** triangle.c:105-111 self_potential_triangle *)
Definition self_potential_triangle (v0 v1 v2 target : vec3) : R :=
  self_potential_triangle_v0 target v0 v1 + self_potential_triangle_v0 target v1 v2 + self_potential_triangle_v0 target v2 v0.
