(** Time reversal (specification of C99). *)
From Coq Require Import Reals.
From Verif Require Import Base Vec GeomModel FieldModel TracingModel.
Local Open Scope R_scope.

(** The motion [u], which lasts [T], run backwards. *)
Definition backwards (T : R) (u : R -> state) : R -> state := fun t => mkstate (s_pos (u (T - t))) (vscale (-1) (s_vel (u (T - t)))).
(** The same electric field, the opposite magnetic field. *)
Definition magnets_reversed (f f' : bem) : Prop := b_class f' = b_class f /\ b_bounds f' = b_bounds f /\ forall p,
  electrostatic_field_at_point f' p = electrostatic_field_at_point f p /\
  magnetostatic_field_at_point f' p = vscale (-1) (magnetostatic_field_at_point f p).
