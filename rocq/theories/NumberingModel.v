(** Configurations that differ in the numbering of the points and in the order in which conditions were assigned (specification of C98). *)
From Coq Require Import Reals Permutation.
From Verif Require Import Base Float64 OrientModel MeshModel Vec GeomModel ExcitationModel FieldModel SolverModel TracingModel.

(** The corners of an element, in order. *)
Definition corners (m : mesh) (r : row) : list (option point) := map (nth_error (m_points m)) r.
(** [m'] has the same elements between the same points and the same groups; its points are stored in another order, some of them perhaps
    more than once. *)
Definition renumbered (m m' : mesh) : Prop :=
  (forall p, In p (m_points m') <-> In p (m_points m)) /\
  Forall2 (fun r r' => corners m' r' = corners m r) (arows (m_lines m)) (arows (m_lines m')) /\
  Forall2 (fun r r' => corners m' r' = corners m r) (arows (m_triangles m)) (arows (m_triangles m')) /\
  aw (m_lines m') = aw (m_lines m) /\ m_plines m' = m_plines m /\ m_ptriangles m' = m_ptriangles m.
(** The same conditions on the same groups, assigned in any order. *)
Definition same_problem (e e' : excitation) : Prop :=
  renumbered (e_mesh e) (e_mesh e') /\ e_symmetry e' = e_symmetry e /\ NoDup (map fst (e_types e)) /\ Permutation (e_types e) (e_types e').
(** Nothing that can be asked of the fields tells them apart. *)
Definition indistinguishable (f f' : bem) : Prop :=
  (forall p, potential_at_point f' p = potential_at_point f p /\ field_at_point f' p = field_at_point f p /\
    electrostatic_potential_at_point f' p = electrostatic_potential_at_point f p /\ magnetostatic_potential_at_point f' p = magnetostatic_potential_at_point f p /\
    electrostatic_field_at_point f' p = electrostatic_field_at_point f p /\ magnetostatic_field_at_point f' p = magnetostatic_field_at_point f p) /\
  (forall i, charge_on_element f' i = charge_on_element f i /\ area_of_element f' i = area_of_element f i) /\
  (forall fuel inner bounds atol x v, tracer_call fuel inner f' bounds atol x v = tracer_call fuel inner f bounds atol x v).
