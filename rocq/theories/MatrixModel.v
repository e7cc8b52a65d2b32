(** The matrix of the boundary element method with the numbers the backend computes
    (backend/radial.c:165-309, backend/tracing.c:253-361, solver.py:121-183): SolverModel's [numerics]
    made concrete.  Still parameters: the value of a floating point point, scipy.integrate.quad on \[-1, 1\],
    the adaptive integrator of kronrod.c and numpy.linalg.solve. *)
From Coq Require Import Reals.
From Verif Require Import Base Float64 OrientModel MeshModel Vec GeomModel QuadModel ExcitationModel FieldModel TriangleModel SolverModel.
Local Open Scope R_scope.

Record analysis := {
  an_pos : point -> vec3;
  an_quad : (R -> R) -> R;
  an_integrate : (R -> R) -> R -> R -> R;
  an_solve : list (list R) -> list R -> result (list R) }.

(** radial.c:224-247 fill_jacobian_buffer_radial; the rows are p0 p1 p2 p3 and the element runs p0 p2 p3 p1 *)
Definition line_source (p0 p1 p2 p3 : vec3) : source :=
  map2 (fun j rz => (j, V3 (fst rz) 0 (snd rz))) (jacobian_buffer_radial p0 p1 p2 p3) (position_buffer_radial p0 p1 p2 p3).
(** tracing.c:253-282 fill_jacobian_buffer_3d *)
Definition triangle_source (t0 t1 t2 : vec3) : source := combine (jacobian_buffer_3d t0 t1 t2) (position_buffer_3d t0 t1 t2).

(** radial.c:262-269 target; solver.py:128-131 get_center_of_element *)
Definition line_center (p0 p1 p2 p3 : vec3) : R * R := position_radial 0 p0 p2 p3 p1.
(** radial.c:289-291, solver.py:247; the Python code passes views of two coordinates, of which the C code
    reads the third value in memory *)
Definition line_normal (p0 p1 p2 p3 : vec3) : R * R := higher_order_normal_radial 0 p0 p2 p3 p1.
(** solver.py:125-126, np.mean *)
Definition triangle_mean (t0 t1 t2 : vec3) : vec3 :=
  V3 ((vx t0 + vx t1 + vx t2) / 3) ((vy t0 + vy t1 + vy t2) / 3) ((vz t0 + vz t1 + vz t2) / 3).
(** tracing.c:300-301 target *)
Definition triangle_center (t0 t1 t2 : vec3) : vec3 := position_3d (1 / 3) (1 / 3) t0 t1 t2.

(** radial_ring.c:59-75 field_dot_normal_radial *)
Definition field_dot_normal_radial (n : R * R) (K r0 z0 r z : R) : R :=
  let factor := flux_density_to_charge_factor K in
  let Er := - dr1_potential_radial_ring r0 z0 r z in
  let Ez := - dz1_potential_radial_ring r0 z0 r z in
  factor * (fst n * Er + snd n * Ez).
(** three_d.c:53-64 field_dot_normal_3d *)
Definition field_dot_normal_3d (n p q : vec3) : R :=
  vx n * - dx1_potential_3d_point p q + vy n * - dy1_potential_3d_point p q + vz n * - dz1_potential_3d_point p q.

(** radial.c:165-178 self_potential_radial, integrated by backend/__init__.py:547-551 *)
Definition self_potential_radial (A : analysis) (p0 p1 p2 p3 : vec3) : R :=
  let target := line_center p0 p1 p2 p3 in
  an_quad A (fun alpha => let pos := position_radial alpha p0 p2 p3 p1 in
    jacobian_radial alpha p0 p2 p3 p1 * potential_radial_ring (fst target) (snd target) (fst pos) (snd pos)).
(** radial.c:185-203 self_field_dot_normal_radial, integrated by backend/__init__.py:556-567 *)
Definition self_field_dot_normal_radial (A : analysis) (K : R) (p0 p1 p2 p3 : vec3) : R :=
  let target := line_center p0 p1 p2 p3 in
  an_quad A (fun alpha => let pos := position_radial alpha p0 p2 p3 p1 in
    jacobian_radial alpha p0 p2 p3 p1 * field_dot_normal_radial (line_normal p0 p1 p2 p3) K (fst target) (snd target) (fst pos) (snd pos)).

(** radial.c:273-284 and solver.py:170-183: the entry of line [i] (its points) and line [j]; the diagonal is
    replaced afterwards *)
Definition radial_potential_entry (A : analysis) (diagonal : bool) (p0 p1 p2 p3 q0 q1 q2 q3 : vec3) : R :=
  if diagonal then self_potential_radial A p0 p1 p2 p3
  else let target := line_center p0 p1 p2 p3 in
       source_sum (fun q => potential_radial_ring (fst target) (snd target) (vx q) (vz q)) (line_source q0 q1 q2 q3).
(** radial.c:285-302 and solver.py:178-180 *)
Definition radial_flux_entry (A : analysis) (K : R) (diagonal : bool) (p0 p1 p2 p3 q0 q1 q2 q3 : vec3) : R :=
  if diagonal then self_field_dot_normal_radial A K p0 p1 p2 p3 - 1
  else let target := line_center p0 p1 p2 p3 in
       source_sum (fun q => field_dot_normal_radial (line_normal p0 p1 p2 p3) K (fst target) (snd target) (vx q) (vz q)) (line_source q0 q1 q2 q3).

(** tracing.c:309-310, 341-342: far from the triangle, measured at its first corner *)
Definition far (target s0 s1 : vec3) : bool := if Rlt_dec (5 * dist3 s0 s1) (dist3 s0 target) then true else false.
(** tracing.c:306-329: the diagonal is first set to self_potential_triangle and then overwritten *)
Definition potential_entry_3d (A : analysis) (diagonal : bool) (t0 t1 t2 s0 s1 s2 : vec3) : R :=
  let target := triangle_center t0 t1 t2 in
  if negb diagonal && far target s0 s1 then source_sum (potential_3d_point target) (triangle_source s0 s1 s2)
  else potential_triangle (an_integrate A) s0 s1 s2 target / (4 * PI).
(** tracing.c:331-361 *)
Definition flux_entry_3d (A : analysis) (K : R) (diagonal : bool) (t0 t1 t2 s0 s1 s2 : vec3) : R :=
  let target := triangle_center t0 t1 t2 in let normal := normal_3d t0 t1 t2 in
  let factor := flux_density_to_charge_factor K in
  if diagonal then -1
  else if far target s0 s1 then source_sum (fun q => factor * field_dot_normal_3d normal target q) (triangle_source s0 s1 s2)
  else factor * flux_triangle (an_integrate A) s0 s1 s2 target normal / (4 * PI).

(** The functions of the solver on vertices as they come from the mesh: four points per line (radial), three
    per triangle. *)
Definition with_rows {T} (A : analysis) (d : T) (radial : vec3 -> vec3 -> vec3 -> vec3 -> T) (three : vec3 -> vec3 -> vec3 -> T) (v : list point) : T :=
  match map (an_pos A) v with
  | [p0; p1; p2; p3] => radial p0 p1 p2 p3
  | [t0; t1; t2] => three t0 t1 t2
  | _ => d
  end.
Definition entry (A : analysis) (radial : bool -> vec3 -> vec3 -> vec3 -> vec3 -> vec3 -> vec3 -> vec3 -> vec3 -> R)
    (three : bool -> vec3 -> vec3 -> vec3 -> vec3 -> vec3 -> vec3 -> R) (vs : list (list point)) (i j : nat) : R :=
  with_rows A 0
    (fun p0 p1 p2 p3 => with_rows A 0 (radial (i =? j)%nat p0 p1 p2 p3) (fun _ _ _ => 0) (nth j vs []))
    (fun t0 t1 t2 => with_rows A 0 (fun _ _ _ _ => 0) (three (i =? j)%nat t0 t1 t2) (nth j vs [])) (nth i vs []).
Definition backend_numerics (A : analysis) : numerics := {|
  nu_line := with_rows A [] line_source (fun _ _ _ => []);
  nu_triangle := with_rows A [] (fun _ _ _ _ => []) triangle_source;
  nu_center := with_rows A vzero (fun p0 p1 p2 p3 => let c := line_center p0 p1 p2 p3 in V3 (fst c) 0 (snd c)) triangle_mean;
  nu_potential := entry A (radial_potential_entry A) (potential_entry_3d A);
  nu_flux := fun K => entry A (radial_flux_entry A K) (flux_entry_3d A K);
  nu_normal := with_rows A (0, 0) line_normal (fun t0 t1 t2 => let n := normal_3d t0 t1 t2 in (vx n, vy n));
  nu_solve := an_solve A |}.
