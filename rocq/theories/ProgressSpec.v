(** Specification of bounded forces. *)
From Coq Require Import Reals.
From Verif Require Import Base Vec TracingModel.
Local Open Scope R_scope.

(** Up to the distance [m] from the bounds and the speed [vmax] the force is defined and at most [Fmax]. *)
Definition force_bounded (field : field_fun) (bounds : box) (m vmax Fmax : R) : Prop :=
  forall p s, within bounds p = true -> norm (vsub (s_pos s) p) <= m -> norm (s_vel s) <= vmax -> exists F, field s = Ok F /\ norm F <= Fmax.
(** Along [n] no point of the bounds is farther than [L] ahead of [x]. *)
Definition extent (bounds : box) (n x : vec3) (L : R) : Prop := forall p, within bounds p = true -> dot n (vsub p x) <= L.
