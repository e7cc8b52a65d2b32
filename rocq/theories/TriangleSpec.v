(** What is meant by an integral over a triangle. *)
From Coq Require Import Reals.
From Coquelicot Require Import Coquelicot.
From Verif Require Import Base Vec.
Local Open Scope R_scope.

(** The point v0 + alpha (v1 - v0) + beta (v2 - v0); alpha, beta >= 0 and alpha + beta <= 1 inside. *)
Definition triangle_point (v0 v1 v2 : vec3) (alpha beta : R) : vec3 :=
  vadd v0 (vadd (vscale alpha (vsub v1 v0)) (vscale beta (vsub v2 v0))).
(** The surface integral of [f]: dA = |(v1 - v0) x (v2 - v0)| dalpha dbeta. *)
Definition triangle_integral (f : vec3 -> R) (v0 v1 v2 : vec3) : R :=
  RInt (fun beta => RInt (fun alpha => norm (cross (vsub v1 v0) (vsub v2 v0)) * f (triangle_point v0 v1 v2 alpha beta)) 0 (1 - beta)) 0 1.
(** Potential (times 4 pi) at [p] of a unit charge at [q], and its field in the direction [n]. *)
Definition coulomb (p q : vec3) : R := / dist3 q p.
Definition coulomb_flux (p n q : vec3) : R := dot n (vsub p q) / dist3 q p ^ 3.
(** Every line through the triangle that is parallel to its first edge passes [p] at this distance or more. *)
Definition clear_of (d : R) (v0 v1 v2 p : vec3) : Prop :=
  forall alpha beta, 0 <= beta <= 1 -> d <= dist3 (triangle_point v0 v1 v2 alpha beta) p.
(** [p] lies in the triangle and on none of its edges. *)
Definition strictly_inside (v0 v1 v2 p : vec3) : Prop := exists alpha beta, 0 < alpha /\ 0 < beta /\ alpha + beta < 1 /\ p = triangle_point v0 v1 v2 alpha beta.
(** [V] is the potential of the charged triangle at its own point [p]: the limit of the potential above and
    below the triangle ([n] is either unit normal) as the height tends to zero. *)
Definition potential_on_triangle (v0 v1 v2 p : vec3) (V : R) : Prop :=
  forall n, norm n = 1 -> dot n (vsub v1 v0) = 0 -> dot n (vsub v2 v0) = 0 ->
  filterlim (fun h => triangle_integral (coulomb (vadd p (vscale h n))) v0 v1 v2) (at_right 0) (locally V).
