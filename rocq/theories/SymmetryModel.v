(** Symmetries of the coordinate axes and traces in turned configurations (specification of C96 and C97). *)
From Coq Require Import Reals.
From Verif Require Import Base Vec GeomModel FieldModel TracingModel.
Local Open Scope R_scope.

(** The 48 maps that send coordinate axes to coordinate axes, with their determinant: 1 for the 24 rotations (by
    quarter turns about the axes and what they are composed of), -1 for the mirrorings. *)
Inductive axis_map : (vec3 -> vec3) -> R -> Prop :=
| axis_same : axis_map (fun v => v) 1
| axis_mirror Q d : axis_map Q d -> axis_map (fun v => V3 (- vx (Q v)) (vy (Q v)) (vz (Q v))) (- d)
| axis_swap_xy Q d : axis_map Q d -> axis_map (fun v => V3 (vy (Q v)) (vx (Q v)) (vz (Q v))) (- d)
| axis_swap_yz Q d : axis_map Q d -> axis_map (fun v => V3 (vx (Q v)) (vz (Q v)) (vy (Q v))) (- d).
(** The axis of symmetry of radial configurations stays. *)
Definition about_axis (Q : vec3 -> vec3) : Prop := forall v, vz (Q v) = vz v.
(** The same points lie in the box [b] and, turned and displaced, in [b']. *)
Definition same_region (Q : vec3 -> vec3) (c : vec3) (b b' : box) : Prop := forall p, within b' (vadd (Q p) c) = within b p.
(** The samples of the second trace are those of the first, turned (by [Q]) and displaced (by [c]), at the same times; the same exceptions. *)
Definition turned_trace (Q : vec3 -> vec3) (c : vec3) (r r' : result (list sample)) : Prop :=
  match r, r' with
  | Ok l, Ok l' => Forall2 (fun x x' => fst x' = fst x /\ s_pos (snd x') = vadd (Q (s_pos (snd x))) c /\ s_vel (snd x') = Q (s_vel (snd x))) l l'
  | Err e, Err e' => e' = e
  | _, _ => False
  end.
(** Fields that differ by the map: electric fields are turned; magnetic fields too, by rotations, and turned and reversed by mirrorings. *)
Definition turned_field (Q : vec3 -> vec3) (d : R) (c : vec3) (f f' : bem) : Prop := forall p,
  electrostatic_field_at_point f' (vadd (Q p) c) = Q (electrostatic_field_at_point f p) /\
  magnetostatic_field_at_point f' (vadd (Q p) c) = vscale d (Q (magnetostatic_field_at_point f p)).
(** Tracers of three-dimensional fields do not look at the bounds of the field. *)
Definition unbounded (f : bem) : Prop := b_class f = Field3D_BEM \/ b_bounds f = None.
(** Rotation about the axis by any angle. *)
Definition rotated (theta : R) (v : vec3) : vec3 := V3 (cos theta * vx v - sin theta * vy v) (sin theta * vx v + cos theta * vy v) (vz v).
