(** C84, C85: accuracy of trajectories traced through the fields of radially symmetric geometries. *)
From Coq Require Import Reals Lra Lia Psatz.
From Coquelicot Require Import Coquelicot.
From Verif Require Import Base BaseFacts Vec GeomModel OutwardFacts FieldModel TracingModel TracingFacts SeriesFacts Props_Tracing.
From Verif Require Import ConvSpec ConvFacts ConvStep ExprSpec RadialSmooth Props_Convergence.
Local Open Scope R_scope.

(** In the field of a radially symmetric geometry (with electrodes, magnets and coils) the force is smooth along every trajectory that keeps
    off the axis, meets no charged ring and stays within the bounds of the field: a step over [h] ends within [C h^6] of the trajectory. *)
Theorem C84_radial f u T : b_class f = FieldRadialBEM -> 0 <= T -> solves (tracer_field f) T u ->
  (forall t, 0 <= t <= T -> in_field f (s_pos (u t)) /\ off_rings (b_elec f) (s_pos (u t)) /\ off_rings (b_mag f) (s_pos (u t)) /\ off_rings (b_cur f) (s_pos (u t))) ->
  exists C h0, 0 <= C /\ 0 < h0 /\ forall t h, 0 <= t -> 0 <= h <= h0 -> t + h <= T ->
    exists ks, rk_stages (tracer_field f) h (u t) = Ok ks /\ snorm (ssub (step_state (u t) ks) (u (t + h))) <= C * h ^ 6 /\ step_error h ks <= C * h ^ 5.
Proof. intros HC HT S Off. destruct (radial_smooth f u T HC HT S Off) as (rho & M & D1 & D2 & D3 & D4 & Sm). exact (C84_local _ _ _ _ _ _ _ _ _ S Sm). Qed.
Print Assumptions C84_radial.

Theorem C85_radial f u T : b_class f = FieldRadialBEM -> 0 <= T -> solves (tracer_field f) T u ->
  (forall t, 0 <= t <= T -> in_field f (s_pos (u t)) /\ off_rings (b_elec f) (s_pos (u t)) /\ off_rings (b_mag f) (s_pos (u t)) /\ off_rings (b_cur f) (s_pos (u t))) ->
  exists C H0, 0 <= C /\ 0 < H0 /\ forall fuel inner bounds atol x v w samples H n t y, 0 < atol ->
    tracer_call fuel inner f bounds atol x v = Ok samples -> convert_velocity_to_SI v = Ok w -> u 0 = mkstate x w -> nth_error samples n = Some (t, y) -> t <= T ->
    0 <= H <= H0 -> (forall k tk yk tk' yk', (k < n)%nat -> nth_error samples k = Some (tk, yk) -> nth_error samples (S k) = Some (tk', yk') -> tk' - tk <= H) ->
    snorm (ssub y (u t)) <= C * H ^ 5.
Proof.
  intros HC HT S Off. destruct (radial_smooth f u T HC HT S Off) as (rho & M & D1 & D2 & D3 & D4 & Sm). destruct (C85_global _ _ _ _ _ _ _ _ _ S Sm) as (C & H0 & P1 & P2 & Q).
  exists C, H0. split; [exact P1|]. split; [exact P2|]. intros fuel inner bounds atol x v w samples H n t y Ha Tr Hw U0 Hn Ht HH Small.
  unfold tracer_call in Tr. rewrite Hw in Tr. cbn [bind] in Tr. unfold trace_particle_wrapper in Tr. rewrite <- U0 in Tr.
  assert (B : (2 <= TRACING_BLOCK_SIZE)%nat) by (unfold TRACING_BLOCK_SIZE; change 2%nat with (Z.to_nat 2); apply Z2Nat.inj_le; lia).
  exact (Q _ _ _ _ _ _ H n t y Ha B Tr Hn Ht HH Small).
Qed.
Print Assumptions C85_radial.

(** The hypotheses are met: an electron that circles at the radius two around a charged ring of radius one. *)
Definition ring_force : R := dr1_potential_radial_ring 2 0 1 0.
Definition ring_field : bem := mkbem FieldRadialBEM (mkcharges LINE_RULE [(EM * ring_force, [(1, V3 1 0 0)])]) empty_2d empty_2d None.
Definition turning : R := Rabs (EM * ring_force) * / sqrt 2.
Definition ring_orbit (t : R) : state :=
  mkstate (V3 (2 * cos (turning * t)) (2 * sin (turning * t)) 0) (V3 (-2 * turning * sin (turning * t)) (2 * turning * cos (turning * t)) 0).
Lemma turning_sq : 2 * (turning * turning) = (EM * ring_force) * (EM * ring_force).
Proof.
  unfold turning. pose proof (sqrt_lt_R0 2 ltac:(lra)) as P. pose proof (sqrt_sqrt 2 ltac:(lra)) as E.
  replace (2 * (Rabs (EM * ring_force) * / sqrt 2 * (Rabs (EM * ring_force) * / sqrt 2))) with (Rabs (EM * ring_force) * Rabs (EM * ring_force) * (2 * / (sqrt 2 * sqrt 2))).
  - rewrite E. replace (2 * / 2) with 1 by field. rewrite Rmult_1_r. unfold Rabs. destruct (Rcase_abs _); ring.
  - field. lra.
Qed.
Lemma orbit_radius a : norm_2d (2 * cos a) (2 * sin a) = 2.
Proof. unfold norm_2d. replace (2 * cos a * (2 * cos a) + 2 * sin a * (2 * sin a)) with (2 * 2 * ((sin a)² + (cos a)²)) by (unfold Rsqr; ring). rewrite sin2_cos2, Rmult_1_r. apply sqrt_square. lra. Qed.
Example C84_radial_nonvacuous T : b_class ring_field = FieldRadialBEM /\ solves (tracer_field ring_field) T ring_orbit /\
  (forall t, 0 <= t <= T -> in_field ring_field (s_pos (ring_orbit t)) /\ off_rings (b_elec ring_field) (s_pos (ring_orbit t)) /\
    off_rings (b_mag ring_field) (s_pos (ring_orbit t)) /\ off_rings (b_cur ring_field) (s_pos (ring_orbit t))).
Proof.
  split; [reflexivity|]. split.
  - intros t _. set (w := turning). set (a := w * t).
    exists (mkstate (V3 (-2 * w * sin a) (2 * w * cos a) 0) (V3 (-2 * w * w * cos a) (-2 * w * w * sin a) 0)). split.
    + assert (E : tracer_field ring_field (ring_orbit t) = Ok (V3 (cos a * - (EM * ring_force * ring_force)) (sin a * - (EM * ring_force * ring_force)) 0)).
      { unfold tracer_field, field_radial_traceable. cbn [ring_field b_class b_bounds b_elec b_mag b_cur]. f_equal. unfold field_radial, current_field, from_cylinder, evaluate, source_sum.
        cbn [ring_orbit s_pos s_vel vx vy vz q_items empty_2d map Rsum fst snd]. fold w. fold a. rewrite orbit_radius. destruct (Rle_dec MIN_DISTANCE_AXIS 2) as [_|N]; [|exfalso; apply N; unfold MIN_DISTANCE_AXIS; lra].
        fold ring_force. assert (Z : dz1_potential_radial_ring 2 0 1 0 = 0) by (unfold dz1_potential_radial_ring; cbv zeta; replace (- (0 - 0)) with 0 by ring; unfold Rdiv; ring).
        rewrite Z. unfold combine_elec_magnetic_field. apply vec_eq; cbn -[EM MU_0 ring_force]; field. }
      eexists. split; [exact E|]. assert (Q : EM * (EM * ring_force * ring_force) = 2 * (w * w)) by (unfold w; rewrite turning_sq; ring).
      cbn [s_vel ring_orbit]. f_equal; fold w; fold a; apply vec_eq; cbn -[EM ring_force].
      * transitivity (- cos a * (EM * (EM * ring_force * ring_force))); [rewrite Q|]; ring.
      * transitivity (- sin a * (EM * (EM * ring_force * ring_force))); [rewrite Q|]; ring.
      * ring.
    + split; (split; [|split]); cbn; try (apply (is_derive_const (V := R_NormedModule))); auto_derive; try exact I; unfold a, w; ring.
  - intros t _. unfold in_field, off_rings. cbn [ring_orbit s_pos vx vy vz ring_field b_bounds b_elec b_mag b_cur q_items empty_2d]. rewrite orbit_radius. split; [|split; [|split]].
    + split; [|exact I]. unfold MIN_DISTANCE_AXIS. lra.
    + intros x jp [<-|[]] [<-|[]]. cbn [snd vx vz]. split; [lra|]. intros E. injection E as E1. lra.
    + intros x jp [].
    + intros x jp [].
Qed.
Example C85_radial_nonvacuous T : 0 <= T -> exists rho M D1 D2 D3 D4, solves (tracer_field ring_field) T ring_orbit /\ smooth_along (tracer_field ring_field) ring_orbit T rho M D1 D2 D3 D4.
Proof.
  intros HT. destruct (C84_radial_nonvacuous T) as (A & B & C). destruct (radial_smooth ring_field ring_orbit T A HT B C) as (rho & M & D1 & D2 & D3 & D4 & Sm).
  exists rho, M, D1, D2, D3, D4. split; [exact B|exact Sm].
Qed.
