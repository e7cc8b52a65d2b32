(** What the theorems about solved problems say: which elements take part, which condition an element has. *)
From Coq Require Import Reals Sorted Qreals.
From Coquelicot Require Import Coquelicot.
From Verif Require Import Base Float64 OrientModel MeshModel Vec GeomModel Tables QuadModel ExcitationModel FieldModel TriangleModel TriangleSpec SolverModel MatrixModel Props_Excitation.
Local Open Scope R_scope.

(** [act] lists the elements with a condition of this kind, in mesh order and once each. *)
Definition active_list (kind : condition -> Prop) (e : excitation) (act : list nat) : Prop :=
  StronglySorted lt act /\ forall i, In i act <-> (i < length (elements_of e))%nat /\ has_condition kind e i.
(** [v] are the points of element [i]. *)
Definition vertices_of (e : excitation) (i : nat) (v : list point) : Prop :=
  exists r, nth_error (elements_of e) i = Some r /\ Forall2 (fun k p => nth_error (m_points (e_mesh e)) k = Some p) r v.
(** [c] is the only condition of this kind on element [i]. *)
Definition governed (kind : condition -> Prop) (e : excitation) (i : nat) (c : condition) : Prop :=
  exists n idx, dget (e_types e) n = Some c /\ kind c /\ dget (groups_of e) n = Some idx /\ In i idx /\
    forall n' c' idx', dget (e_types e) n' = Some c' -> kind c' -> dget (groups_of e) n' = Some idx' -> In i idx' -> n' = n.

(** Four points of a curved line: the two ends, then the points at one and two thirds; three corners of a
    triangle. *)
Definition line4 : Type := (vec3 * vec3 * vec3 * vec3)%type.
Definition tri3 : Type := (vec3 * vec3 * vec3)%type.
Definition line_points (l : line4) : list vec3 := let '(p0, p1, p2, p3) := l in [p0; p1; p2; p3].
Definition tri_points (t : tri3) : list vec3 := let '(t0, t1, t2) := t in [t0; t1; t2].
(** The points of element [i], as positions. *)
Definition element_at (pos : point -> vec3) (e : excitation) (i : nat) (ps : list vec3) : Prop :=
  exists v, vertices_of e i v /\ ps = map pos v.

(** The charge density ([mesh_charges]) of a field: the elements [elems] in mesh order, with density [qs]. *)
Definition carries {T} (cs : charges) (src : T -> source) (elems : list T) (qs : list R) : Prop :=
  length qs = length elems /\ q_items cs = combine qs (map src elems).

(** A curved line: the cubic through its four points, at parameters -1, -1/3, 1/3 and 1; its tangent and the
    length of the tangent. *)
Definition through (a b c d alpha : R) : R :=
  a * ((alpha + 1 / 3) * (alpha - 1 / 3) * (alpha - 1)) / ((-1 + 1 / 3) * (-1 - 1 / 3) * (-1 - 1)) +
  b * ((alpha + 1) * (alpha - 1 / 3) * (alpha - 1)) / ((- (1 / 3) + 1) * (- (1 / 3) - 1 / 3) * (- (1 / 3) - 1)) +
  c * ((alpha + 1) * (alpha + 1 / 3) * (alpha - 1)) / ((1 / 3 + 1) * (1 / 3 + 1 / 3) * (1 / 3 - 1)) +
  d * ((alpha + 1) * (alpha + 1 / 3) * (alpha - 1 / 3)) / ((1 + 1) * (1 + 1 / 3) * (1 - 1 / 3)).
Definition lcurve (l : line4) (alpha : R) : R * R :=
  let '(p0, p1, p2, p3) := l in (through (vx p0) (vx p2) (vx p3) (vx p1) alpha, through (vz p0) (vz p2) (vz p3) (vz p1) alpha).
Definition ltangent (l : line4) (alpha : R) : R * R := (Derive (fun a => fst (lcurve l a)) alpha, Derive (fun a => snd (lcurve l a)) alpha).
Definition lspeed (l : line4) (alpha : R) : R := sqrt (fst (ltangent l alpha) * fst (ltangent l alpha) + snd (ltangent l alpha) * snd (ltangent l alpha)).
(** Its quadrature points (the tables of C40), the middle of the curve (as radius and height, and as a
    point), the normal there (the tangent turned clockwise in the plane of radius and height); the potential
    and normal field there of a unit density on the line itself as the adaptive integrator gives them
    ([lself_*], the field multiplied by the factor of the material) and as the quadrature points give them
    ([lrule_*]). *)
Definition line_charge (l : line4) : source :=
  map2 (fun x w => (Q2R w * lspeed l (Q2R x), V3 (fst (lcurve l (Q2R x))) 0 (snd (lcurve l (Q2R x))))) gauss_points gauss_weights.
Definition lcenter (l : line4) : R * R := lcurve l 0.
Definition lnormal (l : line4) : R * R := (snd (ltangent l 0) / lspeed l 0, - fst (ltangent l 0) / lspeed l 0).
Definition lself_potential A (l : line4) : R :=
  an_quad A (fun alpha => lspeed l alpha * potential_radial_ring (fst (lcenter l)) (snd (lcenter l)) (fst (lcurve l alpha)) (snd (lcurve l alpha))).
Definition lself_flux A K (l : line4) : R :=
  an_quad A (fun alpha => lspeed l alpha * (flux_density_to_charge_factor K *
    (fst (lnormal l) * - dr1_potential_radial_ring (fst (lcenter l)) (snd (lcenter l)) (fst (lcurve l alpha)) (snd (lcurve l alpha))
     + snd (lnormal l) * - dz1_potential_radial_ring (fst (lcenter l)) (snd (lcenter l)) (fst (lcurve l alpha)) (snd (lcurve l alpha))))).
Definition lpoint (l : line4) : vec3 := V3 (fst (lcenter l)) 0 (snd (lcenter l)).
Definition lrule_potential (l : line4) : R := source_sum (fun q => potential_radial_ring (fst (lcenter l)) (snd (lcenter l)) (vx q) (vz q)) (line_charge l).
Definition lrule_flux (l : line4) : R := source_sum (fun q => fst (lnormal l) * - dr1_potential_radial_ring (fst (lcenter l)) (snd (lcenter l)) (vx q) (vz q)
   + snd (lnormal l) * - dz1_potential_radial_ring (fst (lcenter l)) (snd (lcenter l)) (vx q) (vz q)) (line_charge l).


(** A triangle: quadrature points, centre, normal; the test by which it counts as far from a point; the
    integrals of triangle.c and the sums over the quadrature points, for the potential and for the component
    of the field along [n]. *)
Definition tri_charge (t : tri3) : source :=
  let '(t0, t1, t2) := t in
  map2 (fun w b => (Q2R w * norm (cross (vsub t1 t0) (vsub t2 t0)), triangle_point t0 t1 t2 (Q2R (fst b)) (Q2R (snd b)))) quad_weights (combine quad_b1 quad_b2).
Definition tcenter (t : tri3) : vec3 := let '(t0, t1, t2) := t in vscale (1 / 3) (vadd t0 (vadd t1 t2)).
Definition tnormal (t : tri3) : vec3 := let '(t0, t1, t2) := t in vscale (/ norm (cross (vsub t1 t0) (vsub t2 t0))) (cross (vsub t1 t0) (vsub t2 t0)).
(** the triangle [t] is treated as far from [p] *)
Definition tfar (t : tri3) (p : vec3) : bool := let '(t0, t1, _) := t in if Rlt_dec (5 * dist3 t0 t1) (dist3 t0 p) then true else false.
Definition tpotential (A : analysis) (t : tri3) (p : vec3) : R := let '(t0, t1, t2) := t in potential_triangle (an_integrate A) t0 t1 t2 p / (4 * PI).
Definition tflux (A : analysis) (t : tri3) (p n : vec3) : R := let '(t0, t1, t2) := t in flux_triangle (an_integrate A) t0 t1 t2 p n / (4 * PI).
Definition trule_potential (t : tri3) (p : vec3) : R := source_sum (potential_3d_point p) (tri_charge t).
Definition trule_flux (t : tri3) (p n : vec3) : R := source_sum (field_dot_normal_3d n p) (tri_charge t).


(** The potential that condition [c] prescribes at a point. *)
Definition prescribes (c : condition) (p : vec3) (V : R) : Prop :=
  match c with
  | VOLTAGE_FIXED v | MAGNETOSTATIC_POT v => V = v
  | VOLTAGE_FUN g => V = g (vx p) (vy p) (vz p)
  | _ => False
  end.
(** [act] are the elements that carry charge, [ls] their points, [qs] their charge densities in [cs]. *)
Definition solved_lines (A : analysis) (kind : condition -> Prop) (e : excitation) (cs : charges) (act : list nat) (ls : list line4) (qs : list R) : Prop :=
  active_list kind e act /\ Forall2 (fun i l => element_at (an_pos A) e i (line_points l)) act ls /\ carries cs line_charge ls qs.
Definition solved_triangles (A : analysis) (kind : condition -> Prop) (e : excitation) (cs : charges) (act : list nat) (ts : list tri3) (qs : list R) : Prop :=
  active_list kind e act /\ Forall2 (fun i t => element_at (an_pos A) e i (tri_points t)) act ts /\ carries cs tri_charge ts qs.
