(** C95: scaling laws of electron optics. *)
From Coq Require Import Reals Lra.
From Verif Require Import Base BaseFacts Float64 OrientModel MeshModel Vec GeomModel ExcitationModel FieldModel SolverModel SolverFacts SeriesModel DispatchModel TracingModel FocusModel MatrixModel Props_Tracing Props_Matrix
  MotionSolve ScaleModel ScaleTrace ScaleSolve.
Local Open Scope R_scope.

(** All voltages times [kE], all currents and magnetostatic potentials times [kM]: so are the electric and the magnetic potential and field, everywhere. *)
Theorem C95_solution nu o third kE kM e f g : linear_solver (nu_solve nu) ->
  solve_direct nu o third e = Ok f -> solve_direct nu o third (scaled_excitation kE kM e) = Ok g -> scaled_field kE kM f g.
Proof. intros Lin F G. rewrite (scaled_direct nu Lin kE kM o third e f g F G). apply scale_bem_field. Qed.
Print Assumptions C95_solution.

Lemma scaled_lorentz c v E H : combine_elec_magnetic_field (vscale c v) (vscale (c * c) E) (vscale c H) vzero = vscale (c * c) (combine_elec_magnetic_field v E H vzero).
Proof. unfold combine_elec_magnetic_field. apply vec_eq; cbn -[MU_0]; ring. Qed.
Lemma combine_sum v E H C : combine_elec_magnetic_field v E H C = combine_elec_magnetic_field v E (vadd C H) vzero.
Proof. unfold combine_elec_magnetic_field. apply vec_eq; cbn -[MU_0]; ring. Qed.
Lemma tracer_faster c f f' : scaled_field (c * c) c f f' -> forall s, tracer_field f' (faster c s) = rmap (vscale (c * c)) (tracer_field f s).
Proof.
  intros (Cl & Bd & Fl) s. destruct (Fl (s_pos s)) as (_ & _ & E & M). unfold electrostatic_field_at_point, magnetostatic_field_at_point in E, M.
  unfold tracer_field, field_radial_traceable, field_3d_traceable. rewrite Cl in *. cbn [faster s_pos s_vel]. cbv zeta. destruct (b_class f); cbn [rmap].
  - rewrite Bd. f_equal. match goal with |- (if ?b then _ else _) = vscale _ (if ?b' then _ else _) => change b' with b; destruct b end; [|unfold vzero; vec_ring]. rewrite !(combine_sum _ _ (field_radial _ _)). cbn [faster s_pos s_vel]. rewrite E, M. apply scaled_lorentz.
  - f_equal. cbn [faster s_pos s_vel]. rewrite E, M. apply scaled_lorentz.
Qed.
Lemma faster_final c (ls : list (list state)) : final_samples (map (map (faster c)) ls) = rmap (map (faster c)) (final_samples ls).
Proof.
  unfold final_samples. induction ls as [|l ls IH]; [reflexivity|]. cbn [map mapM]. rewrite map_length. unfold np_get at 1 3. rewrite nth_error_map. destruct (nth_error l (length l - 1)); [|reflexivity]. cbn [option_map bind].
  rewrite IH. destruct (mapM _ ls); reflexivity.
Qed.

(** Relations between two traces: the samples of the second have the same positions, [c] times the velocities, and [1/c] times the times. *)
Definition faster_trace (c : R) (r r' : result (list sample)) : Prop :=
  match r, r' with
  | Ok l, Ok l' => Forall2 (fun x x' => fst x' = fst x / c /\ s_pos (snd x') = s_pos (snd x) /\ s_vel (snd x') = vscale c (s_vel (snd x))) l l'
  | Err e, Err e' => e' = e
  | _, _ => False
  end.
Lemma faster_trace_map c r : faster_trace c r (rmap (map (faster_sample c)) r).
Proof. destruct r as [l|]; cbn; [|reflexivity]. induction l; constructor; [repeat split|assumption]. Qed.
(** An electric field [c²] times as strong, a magnetic field [c] times as strong, [c²] times the initial energy: the same trajectory, step by step. *)
Theorem C95_trace fuel inner c f f' bounds atol position velocity : 0 < c -> scaled_field (c * c) c f f' ->
  faster_trace c (tracer_call fuel inner f bounds atol position velocity) (tracer_call fuel inner f' bounds atol position (vscale (c * c) velocity)).
Proof.
  intros Hc S. unfold tracer_call. rewrite (faster_convert c Hc). destruct (convert_velocity_to_SI velocity) as [w|]; [|reflexivity]. cbn [rmap bind]. unfold trace_particle_wrapper.
  change (mkstate position (vscale c w)) with (faster c (mkstate position w)). replace 0 with (0 / c) at 2 by (unfold Rdiv; ring).
  rewrite (faster_blocks c Hc (tracer_field f) (tracer_field f') (tracer_faster c f f' S)). apply faster_trace_map.
Qed.
Print Assumptions C95_trace.
(** The same for the tracers of axial fields (including the exception at the last sample). *)
Theorem C95_axial_trace fuel inner c a a' bounds atol position velocity : 0 < c ->
  (forall p, axial_field true a' p = rmap (vscale (c * c)) (axial_field true a p) /\ axial_field false a' p = rmap (vscale c) (axial_field false a p)) ->
  faster_trace c (axial_tracer_call fuel inner a bounds atol position velocity) (axial_tracer_call fuel inner a' bounds atol position (vscale (c * c) velocity)).
Proof.
  intros Hc S. unfold axial_tracer_call. rewrite (faster_convert c Hc). destruct (convert_velocity_to_SI velocity) as [w|]; [|reflexivity]. cbn [rmap bind]. unfold trace_particle_wrapper.
  change (mkstate position (vscale c w)) with (faster c (mkstate position w)). replace 0 with (0 / c) at 2 by (unfold Rdiv; ring).
  rewrite (faster_blocks c Hc (field_radial_derivs_traceable a) (field_radial_derivs_traceable a')); [apply faster_trace_map|].
  intros s. unfold field_radial_derivs_traceable. destruct (S (s_pos s)) as [E M]. change (s_pos (faster c s)) with (s_pos s). change (s_vel (faster c s)) with (vscale c (s_vel s)). rewrite E, M.
  destruct (axial_field true a (s_pos s)); [|reflexivity]. cbn [rmap bind]. destruct (axial_field false a (s_pos s)); [|reflexivity]. cbn [rmap bind]. f_equal. apply scaled_lorentz.
Qed.
Print Assumptions C95_axial_trace.
(** Planes are crossed at the same points, and beams have the same focus. *)
Theorem C95_optics c : 0 < c ->
  (forall l p0 n, match plane_intersection l p0 n, plane_intersection (map (faster c) l) p0 n with
                  | Ok s, Ok s' => s_pos s' = s_pos s /\ s_vel s' = vscale c (s_vel s)
                  | Err e, Err e' => e' = e
                  | _, _ => False
                  end) /\
  (forall ls p, focus_position ls p <-> focus_position (map (map (faster c)) ls) p) /\
  (forall eV d v, velocity_vec eV d = Ok v -> velocity_vec (c * c * eV) d = Ok (vscale (c * c) v)).
Proof.
  intros Hc. split; [|split].
  - intros l p0 n. rewrite (faster_plane c). destruct (plane_intersection l p0 n); cbn; auto.
  - intros ls p. unfold focus_position. rewrite faster_final.
    assert (A : forall rays, Forall (fun s => vz (s_vel s) <> 0) (map (faster c) rays) <-> Forall (fun s => vz (s_vel s) <> 0) rays).
    { intros rays. rewrite Forall_map. split; apply Forall_impl; intros s; cbn; intros H; [intros Z; apply H; rewrite Z; ring|apply Rmult_integral_contrapositive_currified; lra]. }
    assert (B : forall rays, Forall (fun s => vz (s_vel s) <> 0) rays -> focus_rows (map (faster c) rays) = focus_rows rays).
    { intros rays H. unfold focus_rows. rewrite !map_map. f_equal; apply map_ext_in; intros s Hs; rewrite Forall_forall in H; specialize (H s Hs); unfold angle_x, angle_y; cbn [faster s_pos s_vel vscale vx vy vz].
      - replace (c * vx (s_vel s) / (c * vz (s_vel s))) with (vx (s_vel s) / vz (s_vel s)) by (field; split; lra). reflexivity.
      - replace (c * vy (s_vel s) / (c * vz (s_vel s))) with (vy (s_vel s) / vz (s_vel s)) by (field; split; lra). reflexivity. }
    split.
    + intros (rays & F & Z & L). exists (map (faster c) rays). rewrite F. split; [reflexivity|]. split; [apply A; exact Z|]. rewrite (B rays Z). exact L.
    + intros (rays & F & Z & L). destruct (final_samples ls) as [r|]; [|discriminate]. cbn in F. injection F as <-. apply (proj1 (A r)) in Z. exists r. split; [reflexivity|]. split; [exact Z|]. rewrite (B r Z) in L. exact L.
  - intros eV d v H. unfold velocity_vec in *. destruct (py_assert (ltb 0 eV)) as [|e0] eqn:Pe; [|discriminate]. cbn [bind] in H.
    assert (P : 0 < eV) by (unfold py_assert, ltb in Pe; destruct (Rlt_dec 0 eV); [assumption|discriminate]).
    assert (Q : ltb 0 (c * c * eV) = true) by (unfold ltb; destruct (Rlt_dec 0 (c * c * eV)) as [|n0]; [reflexivity|exfalso; apply n0; apply Rmult_lt_0_compat; nra]). rewrite Q. cbn [py_assert bind]. destruct (Req_EM_T (norm d) 0); [discriminate|]. injection H as <-. f_equal. vec_ring.
Qed.
Print Assumptions C95_optics.
(** The problem of C62 with the voltages [V] and [k V]: the first theorem's hypotheses are met; and every field has a scaled one. *)
Example C95_nonvacuous o third V k : let nu := backend_numerics (ex_analysis (4 * PI)) in
  linear_solver (nu_solve nu) /\ (exists f, solve_direct nu o third (ex_triangles V 3) = Ok f) /\ (exists g, solve_direct nu o third (scaled_excitation k 1 (ex_triangles V 3)) = Ok g) /\
  forall c f, scaled_field (c * c) c f (scale_bem (c * c) c f).
Proof.
  cbv zeta. destruct (C62_three_d_nonvacuous o third V) as (L & _ & _ & _ & _ & S1 & _). destruct (C62_three_d_nonvacuous o third (k * V)) as (_ & _ & _ & _ & _ & S2 & _).
  split; [exact L|]. split; [exact S1|]. split; [exact S2|]. intros. apply scale_bem_field.
Qed.
