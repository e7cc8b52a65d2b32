(** Scaled excitations and scaled solutions (specification of C95). *)
From Coq Require Import Reals.
From Verif Require Import Base Float64 OrientModel MeshModel Vec GeomModel ExcitationModel FieldModel.
Local Open Scope R_scope.

(** All voltages times [kE], all currents and magnetostatic potentials times [kM]; permittivities and permeabilities stay. *)
Definition scaled_condition (kE kM : R) (c : condition) : condition :=
  match c with
  | VOLTAGE_FIXED v => VOLTAGE_FIXED (kE * v)
  | VOLTAGE_FUN f => VOLTAGE_FUN (fun x y z => kE * f x y z)
  | DIELECTRIC k => DIELECTRIC k
  | CURRENT i => CURRENT (kM * i)
  | MAGNETOSTATIC_POT v => MAGNETOSTATIC_POT (kM * v)
  | MAGNETIZABLE k => MAGNETIZABLE k
  end.
Definition scaled_excitation (kE kM : R) (e : excitation) : excitation :=
  mkexc (e_mesh e) (e_electrodes e) (map (fun nc => (fst nc, scaled_condition kE kM (snd nc))) (e_types e)) (e_symmetry e).
(** The fields of [g] are those of [f], scaled; the same class, the same bounds. *)
Definition scaled_field (kE kM : R) (f g : bem) : Prop :=
  b_class g = b_class f /\ b_bounds g = b_bounds f /\ forall p,
    electrostatic_potential_at_point g p = kE * electrostatic_potential_at_point f p /\
    magnetostatic_potential_at_point g p = kM * magnetostatic_potential_at_point f p /\
    electrostatic_field_at_point g p = vscale kE (electrostatic_field_at_point f p) /\
    magnetostatic_field_at_point g p = vscale kM (magnetostatic_field_at_point f p).
