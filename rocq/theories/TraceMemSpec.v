(** What the statements about tracing on memory (Props_TraceMem) mean. *)
From Coq Require Import Reals.
From Verif Require Import Base Vec GeomModel MemModel FieldModel TracingModel MemFacts BackendModel BackendValues BackendCalls BackendReturns TraceMemModel.
Local Open Scope R_scope.

(** The array [a] holds the three numbers of [v], with any dtype, strides and alignment. *)
Definition vector_at (h : heap) (a : ndarray) (v : vec3) : Prop := array_ok h a /\ nd_shape a = [3%nat] /\ contents h a = [vx v; vy v; vz v].
(** The array [a] of shape (3, 2) holds the limits of the box. *)
Definition box_cells (b : box) : list R := [vx (b_lo b); vx (b_hi b); vy (b_lo b); vy (b_hi b); vz (b_lo b); vz (b_hi b)].
Definition box_at (h : heap) (a : ndarray) (b : box) : Prop := floats h a [3%nat; 2%nat] /\ contents h a = box_cells b.
(** Effective point charges: [N] elements, [Q] points for each, in [D] dimensions. *)
Definition eff_ok (h : heap) (Q D : nat) (e : eff_charges) : Prop :=
  exists N, floats h (e_charges e) [N] /\ floats h (e_jacobians e) [N; Q] /\ floats h (e_positions e) [N; Q; D].
(** ... and the charges of FieldModel that they are. *)
Definition line_eff (h : heap) (e : eff_charges) : charges := line_charges h (e_charges e) (e_jacobians e) (e_positions e).
Definition triangle_eff (h : heap) (e : eff_charges) : charges := triangle_charges h (e_charges e) (e_jacobians e) (e_positions e).
(** The bounds of a field, an attribute of the Python object, hold the limits of [b], in the order of C. *)
Definition bounds_cells (b : vec3 * vec3) : list R := let (lo, hi) := b in [vx lo; vx hi; vy lo; vy hi; vz lo; vz hi].
Definition bounds_given (h : heap) (fb : option ndarray) (b : option (vec3 * vec3)) : Prop :=
  match fb, b with
  | None, None => True
  | Some a, Some b => floats h a [3%nat; 2%nat] /\ is_contiguous a = true /\ contents h a = bounds_cells b
  | _, _ => False
  end.
(** The arrays of times and of positions and velocities of the samples. *)
Definition trajectory (h : heap) (T P : ndarray) (samples : list sample) : Prop :=
  is_array h T [length samples] (map fst samples) /\ is_array h P [length samples; 6%nat] (flat_map vals (map snd samples)).
(** The call returns these arrays, and the buffers that existed before keep their contents. *)
Definition returns_trajectory (h : heap) (m : M (ndarray * ndarray)) (samples : list sample) : Prop :=
  exists T P h', m h = Done (T, P) h' /\ extends h h' /\ trajectory h' T P samples.
(** The call does what [r] says: it returns the arrays, or raises the error. *)
Definition outcome_of (h : heap) (m : M (ndarray * ndarray)) (r : result (list sample)) : Prop :=
  match r with Ok samples => returns_trajectory h m samples | Err e => m h = Raises e end.
