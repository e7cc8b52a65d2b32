(** Rigid motions of space, and configurations that differ by one (specification of C93). *)
From Coq Require Import Reals.
From Verif Require Import Base Float64 OrientModel MeshModel Vec GeomModel ExcitationModel FieldModel.
Local Open Scope R_scope.

(** All distances are kept. *)
Definition isometry (T : vec3 -> vec3) : Prop := forall p q, dist3 (T p) (T q) = dist3 p q.
(** Volumes with their sign: a screw stays right handed. *)
Definition triple (o a b c : vec3) : R := dot (cross (vsub a o) (vsub b o)) (vsub c o).
Definition proper (T : vec3 -> vec3) : Prop := forall o a b c, triple (T o) (T a) (T b) (T c) = triple o a b c.
(** A displacement along the axis of symmetry. *)
Definition along_axis (d : R) (p : vec3) : vec3 := V3 (vx p) (vy p) (vz p + d).
(** The vector [v] at [p], carried along. *)
Definition carried (T : vec3 -> vec3) (p v : vec3) : vec3 := vsub (T (vadd p v)) (T p).

(** The mesh [m'] has the elements and groups of [m] on moved points. *)
Definition moved_mesh (pos : point -> vec3) (T : vec3 -> vec3) (m m' : mesh) : Prop :=
  Forall2 (fun p p' => pos p' = T (pos p)) (m_points m) (m_points m') /\
  m_lines m' = m_lines m /\ m_triangles m' = m_triangles m /\ m_plines m' = m_plines m /\ m_ptriangles m' = m_ptriangles m.
(** The same condition; a voltage that depends on the position moves along. *)
Definition moved_condition (T : vec3 -> vec3) (c c' : condition) : Prop :=
  match c, c' with
  | VOLTAGE_FUN f, VOLTAGE_FUN f' => forall p, f' (vx (T p)) (vy (T p)) (vz (T p)) = f (vx p) (vy p) (vz p)
  | VOLTAGE_FUN _, _ | _, VOLTAGE_FUN _ => False
  | _, _ => c' = c
  end.
Definition moved_excitation (pos : point -> vec3) (T : vec3 -> vec3) (e e' : excitation) : Prop :=
  moved_mesh pos T (e_mesh e) (e_mesh e') /\ e_symmetry e' = e_symmetry e /\
  Forall2 (fun a b => fst b = fst a /\ moved_condition T (snd a) (snd b)) (e_types e) (e_types e').

(** Charges carried along. *)
Definition moved_source (T : vec3 -> vec3) (s : source) : source := map (fun jp => (fst jp, T (snd jp))) s.
Definition moved_charges (T : vec3 -> vec3) (c : charges) : charges := mkcharges (q_rule c) (map (fun x => (fst x, moved_source T (snd x))) (q_items c)).
Definition moved_bem (T : vec3 -> vec3) (f : bem) : bem :=
  mkbem (b_class f) (moved_charges T (b_elec f)) (moved_charges T (b_mag f)) (moved_charges T (b_cur f)) (b_bounds f).
