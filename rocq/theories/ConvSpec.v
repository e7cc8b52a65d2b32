(** Specification of trajectories: solutions of the equation of motion and smooth forces. *)
From Coq Require Import Reals.
From Coquelicot Require Import Coquelicot.
From Verif Require Import Base Vec TracingModel TracingFacts.
Local Open Scope R_scope.

(** The size of a state: the sum of the absolute values of its six components. *)
Definition snorm (s : state) : R :=
  Rabs (vx (s_pos s)) + Rabs (vy (s_pos s)) + Rabs (vz (s_pos s)) + (Rabs (vx (s_vel s)) + Rabs (vy (s_vel s)) + Rabs (vz (s_vel s))).
Definition ssub (a b : state) : state := sadd a (sscale (-1) b).
(** The equation of motion: the position changes with the velocity, the velocity with charge over mass times the force. *)
Definition rate (field : field_fun) (s g : state) : Prop := exists F, field s = Ok F /\ g = mkstate (s_vel s) (vscale EM F).
Definition has_derivative (u : R -> state) (t : R) (g : state) : Prop :=
  (is_derive (fun t => vx (s_pos (u t))) t (vx (s_pos g)) /\ is_derive (fun t => vy (s_pos (u t))) t (vy (s_pos g)) /\ is_derive (fun t => vz (s_pos (u t))) t (vz (s_pos g))) /\
  (is_derive (fun t => vx (s_vel (u t))) t (vx (s_vel g)) /\ is_derive (fun t => vy (s_vel (u t))) t (vy (s_vel g)) /\ is_derive (fun t => vz (s_vel (u t))) t (vz (s_vel g))).
Definition solves (field : field_fun) (T : R) (u : R -> state) : Prop :=
  forall t, 0 <= t <= T -> exists g, rate field (u t) g /\ has_derivative u t g.
(** Symmetric multilinear maps. *)
Definition bilinear (B : state -> state -> state) : Prop := (forall a, linear_map (B a)) /\ forall a b, B a b = B b a.
Definition trilinear (B : state -> state -> state -> state) : Prop := (forall a, bilinear (B a)) /\ forall a b c, B a b c = B b a c.
Definition quadrilinear (B : state -> state -> state -> state -> state) : Prop := (forall a, trilinear (B a)) /\ forall a b c d, B a b c d = B b a c d.
(** Near the curve [u] (up to the distance [rho]) the right-hand side of the equation of motion has an expansion up to fourth order with
    a remainder of fifth order, and is Lipschitz. *)
Definition expansion (D1 : state -> state) D2 D3 D4 (g0 d : state) : state :=
  sadd g0 (sadd (D1 d) (sadd (sscale (/ 2) (D2 d d)) (sadd (sscale (/ 6) (D3 d d d)) (sscale (/ 24) (D4 d d d d))))).
Record smooth_along (field : field_fun) (u : R -> state) (T rho M : R) (D1 : R -> state -> state) (D2 : R -> state -> state -> state)
    (D3 : R -> state -> state -> state -> state) (D4 : R -> state -> state -> state -> state -> state) : Prop := {
  sm_radius : 0 < rho /\ 0 < M;
  sm_linear : forall t, 0 <= t <= T -> linear_map (D1 t) /\ bilinear (D2 t) /\ trilinear (D3 t) /\ quadrilinear (D4 t);
  sm_bound : forall t a b c d, 0 <= t <= T -> snorm (D1 t a) <= M * snorm a /\ snorm (D2 t a b) <= M * (snorm a * snorm b) /\
    snorm (D3 t a b c) <= M * (snorm a * (snorm b * snorm c)) /\ snorm (D4 t a b c d) <= M * (snorm a * (snorm b * (snorm c * snorm d)));
  sm_taylor : forall t d, 0 <= t <= T -> snorm d <= rho -> exists g0 g, rate field (u t) g0 /\ rate field (sadd (u t) d) g /\ snorm g0 <= M /\
    snorm (ssub g (expansion (D1 t) (D2 t) (D3 t) (D4 t) g0 d)) <= M * snorm d ^ 5;
  sm_lipschitz : forall t d e g g', 0 <= t <= T -> snorm d <= rho -> snorm e <= rho -> rate field (sadd (u t) d) g -> rate field (sadd (u t) e) g' ->
    snorm (ssub g g') <= M * snorm (ssub d e) }.
