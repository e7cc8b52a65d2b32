(** C96: rotational symmetry of trajectories.  C97: traces in turned and mirrored configurations. *)
From Coq Require Import Reals Lra Lia.
From Coquelicot Require Import Coquelicot.
From Verif Require Import Base BaseFacts Float64 OrientModel MeshModel MeshSpec MeshFacts MeshOps MeshMisc MeshExamples Vec GeomModel ExcitationModel FieldModel SolverModel SeriesModel DispatchModel TracingModel TracingFacts MatrixModel Props_Tracing Props_Matrix
  MotionModel MotionFacts MotionSolve Props_Motion ConvSpec EnergyFacts SymmetryModel SymmetryFacts.
Local Open Scope R_scope.

(** ** Rotations by any angle *)
Lemma rotated_add a u v : rotated a (vadd u v) = vadd (rotated a u) (rotated a v). Proof. apply vec_eq; cbn; ring. Qed.
Lemma rotated_scale a k v : rotated a (vscale k v) = vscale k (rotated a v). Proof. apply vec_eq; cbn; ring. Qed.
Lemma rotated_radius a v : norm_2d (vx (rotated a v)) (vy (rotated a v)) = norm_2d (vx v) (vy v).
Proof.
  unfold norm_2d, rotated. cbn [vx vy]. f_equal. pose proof (sin2_cos2 a) as E. unfold Rsqr in E.
  match goal with |- ?x = ?y => let X := fresh in assert (X : x = (sin a * sin a + cos a * cos a) * y) by ring; rewrite X, E; ring end.
Qed.
Lemma rotated_cylinder a p Er Ez : from_cylinder (rotated a p) Er Ez = rotated a (from_cylinder p Er Ez).
Proof. unfold from_cylinder. cbv zeta. rewrite rotated_radius. destruct (Rle_dec _ _); apply vec_eq; cbn; unfold Rdiv; ring. Qed.
Lemma rotated_cross a u v : cross (rotated a u) (rotated a v) = rotated a (cross u v).
Proof.
  pose proof (sin2_cos2 a) as E. unfold Rsqr in E. unfold rotated, cross. apply vec_eq; cbn; [ring..|].
  match goal with |- ?x = ?y => let X := fresh in assert (X : x = (sin a * sin a + cos a * cos a) * y) by ring; rewrite X, E; ring end.
Qed.
Lemma rotated_lorentz a v E H C : combine_elec_magnetic_field (rotated a v) (rotated a E) (rotated a H) (rotated a C) = rotated a (combine_elec_magnetic_field v E H C).
Proof. unfold combine_elec_magnetic_field. cbv zeta. rewrite <- rotated_add, <- rotated_scale, rotated_cross, <- rotated_add. reflexivity. Qed.
Lemma rotated_field a f s : b_class f = FieldRadialBEM -> b_bounds f = None ->
  tracer_field f (mkstate (rotated a (s_pos s)) (rotated a (s_vel s))) = rmap (rotated a) (tracer_field f s).
Proof.
  intros Cl B. unfold tracer_field. rewrite Cl. unfold field_radial_traceable. rewrite B. cbv zeta iota. cbn [s_pos s_vel rmap]. f_equal.
  unfold field_radial, current_field. cbv zeta. rewrite rotated_radius. change (vz (rotated a (s_pos s))) with (vz (s_pos s)). rewrite !rotated_cylinder. apply rotated_lorentz.
Qed.

(** ** C96 *)
(** Every exact trajectory in a field with rotational symmetry, electric and magnetic, remains one when it is rotated about the axis. *)
Theorem C96_rotated f T u theta : b_class f = FieldRadialBEM -> b_bounds f = None -> solves (tracer_field f) T u ->
  solves (tracer_field f) T (fun t => mkstate (rotated theta (s_pos (u t))) (rotated theta (s_vel (u t)))).
Proof.
  intros Cl B S t Ht. destruct (S t Ht) as (g & (F & HF & ->) & (Dx & Dy & Dz) & (Ex & Ey & Ez)).
  exists (mkstate (rotated theta (s_vel (u t))) (vscale EM (rotated theta F))). split.
  - exists (rotated theta F). split; [|reflexivity]. rewrite (rotated_field theta f (u t) Cl B), HF. reflexivity.
  - cbn [s_pos s_vel] in *.
    assert (Lin : forall (p q : R -> R) a b dp dq, is_derive p t dp -> is_derive q t dq -> is_derive (fun t => a * p t + b * q t) t (a * dp + b * dq)).
    { intros p q a b dp dq Hp Hq. apply (is_derive_plus (V := R_NormedModule)); apply is_derive_scal; assumption. }
    assert (Dif : forall (p q : R -> R) a b dp dq, is_derive p t dp -> is_derive q t dq -> is_derive (fun t => a * p t - b * q t) t (a * dp - b * dq)).
    { intros p q a b dp dq Hp Hq. apply (is_derive_minus (V := R_NormedModule)); apply is_derive_scal; assumption. }
    split; (split; [|split]); cbn [rotated vscale s_pos s_vel vx vy vz].
    + apply Dif; assumption.
    + apply Lin; assumption.
    + exact Dz.
    + eapply is_derive_to; [apply Dif; eassumption|cbn -[EM]; ring].
    + eapply is_derive_to; [apply Lin; eassumption|cbn -[EM]; ring].
    + exact Ez.
Qed.
Print Assumptions C96_rotated.
(** Without a magnetic field the angular momentum about the axis is conserved. *)
Theorem C96_angular_momentum f T u t : b_class f = FieldRadialBEM -> bem_is_magnetostatic f = false -> solves (tracer_field f) T u -> 0 <= t <= T ->
  vx (s_pos (u t)) * vy (s_vel (u t)) - vy (s_pos (u t)) * vx (s_vel (u t)) = vx (s_pos (u 0)) * vy (s_vel (u 0)) - vy (s_pos (u 0)) * vx (s_vel (u 0)).
Proof.
  intros Cl M S Ht. apply (zero_derivative (fun t => vx (s_pos (u t)) * vy (s_vel (u t)) - vy (s_pos (u t)) * vx (s_vel (u t))) T t); [|exact Ht]. clear t Ht. intros t Ht.
  destruct (S t Ht) as (g & (F & HF & ->) & (Dx & Dy & _) & (Ex & Ey & _)). cbn [s_pos s_vel vscale vx vy] in *.
  eapply is_derive_to.
  - apply (is_derive_minus (V := R_NormedModule)); apply (is_derive_mult (fun t => _ (s_pos (u t)))); try eassumption; intros; apply Rmult_comm.
  - assert (Z : vx (s_pos (u t)) * vy F - vy (s_pos (u t)) * vx F = 0).
    { destruct (radial_force f (u t) F Cl M HF) as [-> | ->]; [unfold vzero; cbn; ring|]. unfold field_radial, from_cylinder. cbv zeta. destruct (Rle_dec _ _); cbn; unfold Rdiv; ring. }
    unfold minus, plus, opp, mult; cbn -[EM]. rewrite <- (Rmult_0_r EM), <- Z. ring.
Qed.
Print Assumptions C96_angular_momentum.
Lemma stays_in_plane n field fuel inner b atol x v samples : (forall s F, in_plane n s -> field s = Ok F -> dot n F = 0) -> 0 < atol -> dot n x = 0 -> dot n v = 0 ->
  (w <- convert_velocity_to_SI v ;; trace_particle_wrapper fuel inner field b atol x w) = Ok samples ->
  forall k t y, nth_error samples k = Some (t, y) -> dot n (s_pos y) = 0 /\ dot n (s_vel y) = 0.
Proof.
  intros Hf Ha Hx Hv H. apply bind_ok in H. destruct H as (w & Hw & H). unfold trace_particle_wrapper in H.
  assert (B : (2 <= TRACING_BLOCK_SIZE)%nat) by (unfold TRACING_BLOCK_SIZE; change 2%nat with (Z.to_nat 2); apply Z2Nat.inj_le; lia).
  destruct (C37_trajectory _ _ _ _ _ _ _ _ Ha B H) as (m & Len & First & _ & Step).
  assert (W : dot n w = 0).
  { unfold convert_velocity_to_SI in Hw. cbv zeta in Hw. destruct (Req_EM_T (norm v) 0); [discriminate|]. injection Hw as <-.
    match goal with |- dot n (vscale ?a (vscale ?b v)) = 0 => replace (dot n (vscale a (vscale b v))) with (a * b * dot n v) by (unfold dot, vscale; cbn -[e_charge m_e]; ring) end. rewrite Hv. ring. }
  intros k. induction k as [|k IH]; intros t y Hk.
  - rewrite First in Hk. injection Hk as <- <-. split; assumption.
  - destruct (nth_error samples k) as [[t0 y0]|] eqn:E; [|apply nth_error_None in E; assert (nth_error samples (S k) <> None) by congruence; apply nth_error_Some in H0; lia].
    destruct (Step k t0 y0 t y E Hk) as (_ & _ & _ & ks & K & _ & ->). exact (plane_step n field Hf _ y0 ks (IH _ _ eq_refl) K).
Qed.
(** Without a magnetic field an electron that starts in a plane through the axis never leaves it; its computed trajectory does not either, not by the smallest amount. *)
Theorem C96_meridional n fuel inner f bounds atol x v samples : b_class f = FieldRadialBEM -> bem_is_magnetostatic f = false -> 0 < atol ->
  vz n = 0 -> dot n x = 0 -> dot n v = 0 -> tracer_call fuel inner f bounds atol x v = Ok samples ->
  forall k t y, nth_error samples k = Some (t, y) -> dot n (s_pos y) = 0 /\ dot n (s_vel y) = 0.
Proof.
  intros Cl M Ha Z Hx Hv H. apply (stays_in_plane n (tracer_field f) fuel inner bounds atol x v samples); try assumption. intros s F [P V] HF.
  destruct (radial_force f s F Cl M HF) as [-> | ->]; [unfold dot, vzero; cbn; ring|]. apply plane_cylinder; assumption.
Qed.
Print Assumptions C96_meridional.
(** Quarter turns about the axis carry computed trajectories to computed trajectories, step by step; mirrorings too, without a magnetic field. *)
Theorem C96_quarter_turns Q d fuel inner f bounds bounds' atol x v : axis_map Q d -> about_axis Q -> b_class f = FieldRadialBEM -> b_bounds f = None ->
  (d = 1 \/ bem_is_magnetostatic f = false) -> same_region Q vzero bounds bounds' ->
  turned_trace Q vzero (tracer_call fuel inner f bounds atol x v) (tracer_call fuel inner f bounds' atol (Q x) (Q v)).
Proof.
  intros HQ A Cl Bn D Hb. unfold tracer_call. rewrite <- (vadd_0 (Q x)). apply (turned_wrapper Q d vzero HQ); [|exact Hb]. intros s. rewrite !tracer_lorentz by (right; exact Bn). cbn [turned s_pos s_vel rmap]. rewrite vadd_0. f_equal.
  rewrite <- (turned_lorentz Q d _ _ _ HQ). unfold electrostatic_field_at_point. rewrite Cl, (about_field_radial Q d _ HQ A). f_equal.
  destruct D as [-> | M].
  - unfold magnetostatic_field_at_point. rewrite Cl, (about_field_radial Q 1 _ HQ A), (about_current Q 1 _ HQ A), <- (proj1 (axis_linear Q 1 HQ)). apply vec_eq; cbn -[field_radial current_field]; ring.
  - rewrite !no_magnetic_field by exact M. rewrite (axis_zero Q d HQ). unfold vzero; apply vec_eq; cbn; ring.
Qed.
Print Assumptions C96_quarter_turns.
(** Both hold of the tracers of axial fields; a field is free of magnetism if its magnetic part vanishes wherever it has a value. *)
Theorem C96_axial fuel inner a bounds atol x v : 0 < atol ->
  (forall Q d bounds', axis_map Q d -> about_axis Q -> (d = 1 \/ forall p F, axial_field false a p = Ok F -> F = vzero) -> same_region Q vzero bounds bounds' ->
     turned_trace Q vzero (axial_tracer_call fuel inner a bounds atol x v) (axial_tracer_call fuel inner a bounds' atol (Q x) (Q v))) /\
  (forall n samples, (forall p F, axial_field false a p = Ok F -> F = vzero) -> vz n = 0 -> dot n x = 0 -> dot n v = 0 -> axial_tracer_call fuel inner a bounds atol x v = Ok samples ->
     forall k t y, nth_error samples k = Some (t, y) -> dot n (s_pos y) = 0 /\ dot n (s_vel y) = 0).
Proof.
  intros Ha. split.
  - intros Q d bounds' HQ A D Hb. unfold axial_tracer_call. rewrite <- (vadd_0 (Q x)). apply (turned_wrapper Q d vzero HQ); [|exact Hb]. intros s. unfold field_radial_derivs_traceable. cbn [turned s_pos s_vel]. rewrite vadd_0, !(about_axial Q d HQ A).
    destruct (axial_field true a (s_pos s)) as [E|]; [|reflexivity]. cbn [rmap bind]. destruct (axial_field false a (s_pos s)) as [M|] eqn:EM; [|reflexivity]. cbn [rmap bind]. f_equal. rewrite <- (turned_lorentz Q d _ _ _ HQ). f_equal.
    destruct D as [-> | Z]; [apply vec_eq; cbn; ring|]. rewrite (Z _ _ EM), (axis_zero Q d HQ). unfold vzero; apply vec_eq; cbn; ring.
  - intros n samples M Z Hx Hv H. apply (stays_in_plane n (field_radial_derivs_traceable a) fuel inner bounds atol x v samples); try assumption. intros s F [P V] HF. unfold field_radial_derivs_traceable in HF.
    apply bind_ok in HF. destruct HF as (E & HE & HF). apply bind_ok in HF. destruct HF as (B & HB & HF). injection HF as <-. rewrite (M _ _ HB). pose proof (axial_plane n true a _ E Z P HE) as K.
    unfold combine_elec_magnetic_field. rewrite <- K. unfold dot, vzero. cbn -[MU_0]. ring.
Qed.
Print Assumptions C96_axial.
Lemma free_field : tracer_field (radial_bem empty_2d empty_2d empty_3d) = uniform vzero.
Proof.
  apply FunctionalExtensionality.functional_extensionality. intros s. rewrite tracer_lorentz by (right; reflexivity). unfold electrostatic_field_at_point. cbn [radial_bem b_class b_elec]. rewrite no_magnetic_field by reflexivity.
  unfold field_radial, evaluate. cbn [empty_2d q_items map Rsum]. rewrite Ropp_0, cylinder_zero. unfold uniform. f_equal. unfold combine_elec_magnetic_field, vzero; apply vec_eq; cbn; ring.
Qed.
Definition quarter (v : vec3) : vec3 := V3 (- vy v) (vx v) (vz v).
Lemma quarter_map : axis_map quarter 1.
Proof. replace 1 with (- - 1) by ring. apply (axis_mirror (fun v => V3 (vy v) (vx v) (vz v))), (axis_swap_xy (fun v => v)), axis_same. Qed.
(** The hypotheses are met: quarter turns and the cube of side two, the mirror at the plane x = 0; any ring charge is a field; a plane through the axis. *)
Example C96_nonvacuous : (axis_map quarter 1 /\ about_axis quarter /\ forall b, b_lo b = V3 (-1) (-1) (-1) -> b_hi b = V3 1 1 1 -> same_region quarter vzero b b) /\
  (exists Q, axis_map Q (-1) /\ about_axis Q) /\
  (let f := radial_bem (mkcharges LINE_RULE [(1, [(1, V3 1 0 0)])]) empty_2d empty_3d in b_class f = FieldRadialBEM /\ b_bounds f = None /\ bem_is_magnetostatic f = false) /\
  (let n := V3 1 (-1) 0 in vz n = 0 /\ dot n (V3 2 2 7) = 0) /\
  (exists fuel inner samples, tracer_call fuel inner (radial_bem empty_2d empty_2d empty_3d) (mkbox (V3 (-1) (-1) (-1)) (V3 1 1 1)) 1 vzero (V3 0 0 5) = Ok samples /\ (2 <= length samples)%nat) /\
  solves (tracer_field (radial_bem empty_2d empty_2d empty_3d)) 1 (fun t => mkstate (V3 1 t 0) (V3 0 1 0)).
Proof.
  split; [split; [exact quarter_map|split; [intros v; reflexivity|]]|split; [|split; [|split; [|split]]]].
  - intros b Lo Hi p. unfold within. rewrite Lo, Hi. cbn [vadd quarter vzero vx vy vz]. unfold leb. rewrite !Rplus_0_r.
    repeat match goal with |- context [Rle_dec ?x ?y] => destruct (Rle_dec x y) end; cbn; try reflexivity; exfalso; lra.
  - eexists. split; [apply (axis_mirror (fun v => v)), axis_same|intros v; reflexivity].
  - repeat split.
  - split; [reflexivity|unfold dot; cbn; ring].
  - assert (Nz : V3 0 0 5 <> vzero) by (intros E; injection E; lra).
    assert (Cv : exists w, convert_velocity_to_SI (V3 0 0 5) = Ok w /\ w <> vzero).
    { unfold convert_velocity_to_SI. cbv zeta. assert (N5 : norm (V3 0 0 5) = 5) by (apply norm_unique; [lra|unfold dot; cbn; lra]). rewrite N5. destruct (Req_EM_T 5 0); [lra|]. eexists. split; [reflexivity|].
      intros E. apply (f_equal vz) in E. cbn -[e_charge m_e] in E. assert (0 < sqrt (2 * 5 * e_charge / m_e)) by (apply sqrt_lt_R0; unfold e_charge, m_e; lra). nra. }
    destruct Cv as (w & Hw & Wz). assert (B : (2 <= TRACING_BLOCK_SIZE)%nat) by (unfold TRACING_BLOCK_SIZE; change 2%nat with (Z.to_nat 2); apply Z2Nat.inj_le; lia).
    destruct (C36_free TRACING_BLOCK_SIZE (mkbox (V3 (-1) (-1) (-1)) (V3 1 1 1)) 1 vzero w ltac:(lra) B Wz) as (n & Out & _ & Tr).
    exists (S n), (S n). eexists. unfold tracer_call. rewrite Hw. cbn [bind]. unfold trace_particle_wrapper. rewrite free_field. split; [apply Tr; lia|]. rewrite map_length, seq_length. destruct n; [|lia].
    exfalso. revert Out. unfold within, vadd, vscale, vzero. cbn [vx vy vz b_lo b_hi INR]. rewrite !Rmult_0_l, !Rplus_0_r.
    unfold leb. repeat (destruct (Rle_dec _ _); [|lra]). discriminate.
  - intros t _. exists (mkstate (V3 0 1 0) (vscale EM vzero)). rewrite free_field. split; [exists vzero; split; reflexivity|]. split; (split; [|split]); cbn [s_pos s_vel vx vy vz vscale vzero]; try apply (is_derive_const (V := R_NormedModule)); try (rewrite Rmult_0_r; apply (is_derive_const (V := R_NormedModule))).
    apply (is_derive_id (K := R_AbsRing)).
Qed.

(** ** C97 *)
(** In a turned, mirrored, displaced field an electron started at the moved point in the turned direction follows the moved trajectory, step by step. *)
Theorem C97_trace Q d c fuel inner f f' bounds bounds' atol x v : axis_map Q d -> unbounded f -> unbounded f' -> turned_field Q d c f f' -> same_region Q c bounds bounds' ->
  turned_trace Q c (tracer_call fuel inner f bounds atol x v) (tracer_call fuel inner f' bounds' atol (vadd (Q x) c) (Q v)).
Proof.
  intros HQ U U' F Hb. unfold tracer_call. apply (turned_wrapper Q d c HQ); [|exact Hb]. intros s. rewrite !tracer_lorentz by assumption. cbn [turned s_pos s_vel rmap]. f_equal.
  destruct (F (s_pos s)) as [-> ->]. apply (turned_lorentz Q d _ _ _ HQ).
Qed.
Print Assumptions C97_trace.
Lemma axis_isometry Q d c : axis_map Q d -> isometry (fun p => vadd (Q p) c).
Proof. intros HQ p q. unfold dist3. replace (vsub (vadd (Q p) c) (vadd (Q q) c)) with (vsub (Q p) (Q q)) by vec_ring. rewrite <- (axis_sub Q d HQ). apply (axis_norm Q d HQ). Qed.
Lemma axis_proper Q c : axis_map Q 1 -> proper (fun p => vadd (Q p) c).
Proof.
  intros HQ o a b e. unfold triple. replace (vsub (vadd (Q a) c) (vadd (Q o) c)) with (vsub (Q a) (Q o)) by vec_ring. replace (vsub (vadd (Q b) c) (vadd (Q o) c)) with (vsub (Q b) (Q o)) by vec_ring.
  replace (vsub (vadd (Q e) c) (vadd (Q o) c)) with (vsub (Q e) (Q o)) by vec_ring. rewrite <- !(axis_sub Q 1 HQ), (axis_cross Q 1 HQ), <- (proj2 (axis_linear Q 1 HQ)), (axis_dot Q 1 HQ). unfold dot, vscale; cbn; ring.
Qed.
(** A three-dimensional geometry with its excitation is turned by quarter turns about the coordinate axes and displaced, or mirrored as well: the computed trajectories of its solution
    move along, step by step.  (Mirrored only without dielectrics, magnetizable material and magnetic fields.) *)
Theorem C97_configuration A o third e e' Q d c fuel inner bounds bounds' atol x v f f' : axis_map Q d ->
  (d = 1 \/ (forall n k, In (n, k) (e_types e) -> match k with DIELECTRIC _ | MAGNETIZABLE _ => False | _ => True end) /\ bem_is_magnetostatic f = false) ->
  mesh_ok (e_mesh e) -> e_symmetry e = THREE_D -> is_3d (e_mesh e) = true -> is_3d (e_mesh e') = true -> has_current e = false ->
  moved_excitation (an_pos A) (fun p => vadd (Q p) c) e e' -> same_region Q c bounds bounds' ->
  solve_direct (backend_numerics A) o third e = Ok f -> solve_direct (backend_numerics A) o third e' = Ok f' ->
  turned_trace Q c (tracer_call fuel inner f bounds atol x v) (tracer_call fuel inner f' bounds' atol (vadd (Q x) c) (Q v)).
Proof.
  intros HQ D Ok3 Sym D3 D3' NoC M Hb F F'. set (T := fun p => vadd (Q p) c) in *.
  assert (Iso : isometry T) by apply (axis_isometry Q d c HQ).
  assert (Pr : proper T \/ forall n k, In (n, k) (e_types e) -> match k with DIELECTRIC _ | MAGNETIZABLE _ => False | _ => True end).
  { destruct D as [-> | [D _]]; [left; apply axis_proper; exact HQ|right; exact D]. }
  pose proof (C93_three_d A o third e e' T Iso Pr Ok3 Sym D3 D3' NoC M) as G. rewrite F, F' in G. cbn [same_outcome] in G. destruct G as (G & _ & Cl & _).
  assert (S : solved_excitation o third e = Ok e) by (unfold solved_excitation; rewrite (not_planar _ D3); reflexivity).
  pose proof (solved_class _ o third e e f S F) as C. rewrite D3 in C.
  apply (C97_trace Q d c); [exact HQ|left; exact C|left; congruence| |exact Hb]. intros p. destruct (G p) as (_ & _ & E & B & _).
  assert (L : forall w, carried T p w = Q w).
  { intros w. unfold carried, T. rewrite (proj1 (axis_linear Q d HQ)). vec_ring. }
  rewrite L in E, B. split; [exact E|]. unfold T in B. rewrite B. destruct D as [-> | [_ Z]]; [apply vec_eq; cbn; ring|]. rewrite (no_magnetic_field f p Z), (axis_zero Q d HQ). unfold vzero; apply vec_eq; cbn; ring.
Qed.
Print Assumptions C97_configuration.
(** Traces that correspond cross corresponding planes in corresponding states. *)
Theorem C97_plane Q d c l l' p0 n : axis_map Q d ->
  Forall2 (fun s s' => s_pos s' = vadd (Q (s_pos s)) c /\ s_vel s' = Q (s_vel s)) l l' ->
  match plane_intersection l p0 n, plane_intersection l' (vadd (Q p0) c) (Q n) with
  | Ok s, Ok s' => s_pos s' = vadd (Q (s_pos s)) c /\ s_vel s' = Q (s_vel s)
  | Err a, Err b => b = a
  | _, _ => False
  end.
Proof.
  intros HQ F. assert (E : l' = map (turned Q c) l).
  { induction F as [|s s' l l' [P V] _ IH]; [reflexivity|]. cbn. f_equal; [|exact IH]. destruct s' as [p w]. cbn in P, V. subst. reflexivity. }
  subst l'. clear F. rewrite (turned_plane Q d c HQ). destruct (plane_intersection l p0 n); cbn; auto.
Qed.
Print Assumptions C97_plane.
(** The hypotheses are met by the turn and the solved problem of C93. *)
Example C97_nonvacuous o third V : let e := ex_triangles V 3 in let e' := ex_turned V 3 in let A := ex_analysis (4 * PI) in
  axis_map ex_turn 1 /\ mesh_ok (e_mesh e) /\ e_symmetry e = THREE_D /\ is_3d (e_mesh e) = true /\ is_3d (e_mesh e') = true /\ has_current e = false /\
  moved_excitation (an_pos A) (fun p => vadd (ex_turn p) vzero) e e' /\ (exists f f', solve_direct (backend_numerics A) o third e = Ok f /\ solve_direct (backend_numerics A) o third e' = Ok f') /\
  (forall b, b_lo b = V3 (-1) (-1) (-1) -> b_hi b = V3 1 1 1 -> same_region ex_turn vzero b b).
Proof.
  destruct (C93_nonvacuous o third V 1) as [(I & P & M & S & D & D' & N & Mv & f & F) _]. cbv zeta in *.
  assert (X : (fun p => vadd (ex_turn p) vzero) = ex_turn) by (apply FunctionalExtensionality.functional_extensionality; intros p; apply vadd_0).
  split; [|split; [exact M|split; [exact S|split; [exact D|split; [exact D'|split; [exact N|split; [|split]]]]]]].
  - replace 1 with (- - 1) by ring. apply (axis_swap_xy (fun v => V3 (vx v) (vz v) (vy v))), (axis_swap_yz (fun v => v)), axis_same.
  - rewrite X. exact Mv.
  - pose proof (C93_three_d (ex_analysis (4 * PI)) o third (ex_triangles V 3) (ex_turned V 3) ex_turn I (or_introl P) M S D D' N Mv) as G. rewrite F in G.
    destruct (solve_direct _ o third (ex_turned V 3)) as [f'|]; [|contradiction]. exists f, f'. split; [exact F|reflexivity].
  - intros b Lo Hi p. unfold within. rewrite Lo, Hi. cbn [vadd ex_turn vzero vx vy vz]. unfold leb. rewrite !Rplus_0_r.
    repeat match goal with |- context [Rle_dec ?x ?y] => destruct (Rle_dec x y) end; cbn; try reflexivity; exfalso; lra.
Qed.
