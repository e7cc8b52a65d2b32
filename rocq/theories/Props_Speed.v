(** C94, computed trajectories in magnetic fields: the speed. *)
From Coq Require Import Reals Lra Lia Psatz.
From Coquelicot Require Import Coquelicot.
From Verif Require Import Base BaseFacts Vec GeomModel GeomFacts OutwardFacts FieldModel FieldFacts Field3DFacts TracingModel TracingFacts Props_Tracing ConvSpec ConvStep EnergyFacts BemSmooth RadialSmooth SeriesFacts Props_Convergence Props_RadialConvergence Props_Energy.
Local Open Scope R_scope.

Lemma norm_near a b : Rabs (norm a - norm b) <= norm (vsub a b).
Proof.
  pose proof (norm_triangle (vsub a b) b) as A. pose proof (norm_triangle (vsub b a) a) as B. replace (vadd (vsub a b) b) with a in A by (apply vec_eq; cbn; ring). replace (vadd (vsub b a) a) with b in B by (apply vec_eq; cbn; ring).
  assert (E : norm (vsub b a) = norm (vsub a b)) by (unfold norm, vsub, dot; cbn; f_equal; ring). rewrite E in B. apply Rabs_le_between. lra.
Qed.
Lemma samples_after fuel inner f bounds atol x v samples n t y : 0 < atol -> tracer_call fuel inner f bounds atol x v = Ok samples -> nth_error samples n = Some (t, y) -> 0 <= t.
Proof.
  intros Ha Tr Hn. destruct (C37_tracer _ _ _ _ _ _ _ _ Ha Tr) as (w' & Hw' & First & _ & Step). assert (Mono : forall k tk yk, nth_error samples k = Some (tk, yk) -> 0 <= tk).
  { induction k as [|k IH]; intros tk yk Hk; [rewrite First in Hk; injection Hk as <- _; lra|]. destruct (nth_error samples k) as [[t0 y0]|] eqn:E0.
    - destruct (Step k t0 y0 tk yk E0 Hk) as (_ & Lt & _). specialize (IH t0 y0 eq_refl). lra.
    - apply nth_error_None in E0. assert (X : nth_error samples (S k) <> None) by congruence. apply nth_error_Some in X. lia. }
  exact (Mono n t y Hn).
Qed.
(** In a magnetic field, three-dimensional or with rotational symmetry, the computed speed is the initial one up to the fifth power of the largest step. *)
Theorem C94_speed_computed f u T : q_items (b_elec f) = nil -> 0 <= T -> solves (tracer_field f) T u ->
  (b_class f = Field3D_BEM /\ forall t, 0 <= t <= T -> off_charges (b_mag f) (s_pos (u t))) \/
  (b_class f = FieldRadialBEM /\ forall t, 0 <= t <= T -> in_field f (s_pos (u t)) /\ off_rings (b_mag f) (s_pos (u t)) /\ off_rings (b_cur f) (s_pos (u t))) ->
  exists C H0, 0 <= C /\ 0 < H0 /\ forall fuel inner bounds atol x v w samples H n t y, 0 < atol ->
    tracer_call fuel inner f bounds atol x v = Ok samples -> convert_velocity_to_SI v = Ok w -> u 0 = mkstate x w -> nth_error samples n = Some (t, y) -> t <= T ->
    0 <= H <= H0 -> (forall k tk yk tk' yk', (k < n)%nat -> nth_error samples k = Some (tk, yk) -> nth_error samples (S k) = Some (tk', yk') -> tk' - tk <= H) ->
    Rabs (norm (s_vel y) - norm w) <= C * H ^ 5.
Proof.
  intros NoE HT Sol Off.
  assert (G : exists C H0, 0 <= C /\ 0 < H0 /\ forall fuel inner bounds atol x v w samples H n t y, 0 < atol ->
    tracer_call fuel inner f bounds atol x v = Ok samples -> convert_velocity_to_SI v = Ok w -> u 0 = mkstate x w -> nth_error samples n = Some (t, y) -> t <= T ->
    0 <= H <= H0 -> (forall k tk yk tk' yk', (k < n)%nat -> nth_error samples k = Some (tk, yk) -> nth_error samples (S k) = Some (tk', yk') -> tk' - tk <= H) ->
    snorm (ssub y (u t)) <= C * H ^ 5).
  { destruct Off as [[Cl Off]|[Cl Off]].
    - apply (C85_three_d f u T Cl HT Sol). intros t Ht. split; [|apply Off, Ht]. unfold off_charges. rewrite NoE. intros ? ? [].
    - apply (C85_radial f u T Cl HT Sol). intros t Ht. destruct (Off t Ht) as (I & M & K). split; [exact I|]. split; [|split; assumption]. unfold off_rings. rewrite NoE. intros ? ? []. }
  destruct G as (C & H0 & HC & HH & G). exists C, H0. split; [exact HC|]. split; [exact HH|]. intros fuel inner bounds atol x v w samples H n t y Ha Tr Hw U0 Hn Ht HHb Small.
  pose proof (G fuel inner bounds atol x v w samples H n t y Ha Tr Hw U0 Hn Ht HHb Small) as E. pose proof (samples_after _ _ _ _ _ _ _ _ _ _ _ Ha Tr Hn) as T0.
  pose proof (C94_magnetic f u T t NoE Sol (conj T0 Ht)) as N. rewrite U0 in N. cbn [s_vel] in N. rewrite <- N. eapply Rle_trans; [apply norm_near|]. eapply Rle_trans; [|exact E].
  destruct (snorm_parts (ssub y (u t))) as [_ Nv]. replace (s_vel (ssub y (u t))) with (vsub (s_vel y) (s_vel (u t))) in Nv by (apply vec_eq; cbn; ring). exact Nv.
Qed.
Print Assumptions C94_speed_computed.

(** The hypotheses are met: electrons that leave a magnetic charge, and a ring of them, along the lines of their fields. *)
Definition magnet : bem := mkbem Field3D_BEM empty_3d (mkcharges TRIANGLE_RULE [(1, [(1, vzero)])]) empty_3d None.
Definition ring_magnet : bem := mkbem FieldRadialBEM empty_2d (mkcharges LINE_RULE [(1, [(1, V3 1 0 0)])]) empty_3d None.
Definition leaving (t : R) : state := mkstate (V3 (2 + t) 0 0) (V3 1 0 0).
Lemma leaving_solves field T : (forall t, 0 <= t <= T -> field (leaving t) = Ok vzero) -> solves field T leaving.
Proof.
  intros H t Ht. exists (mkstate (V3 1 0 0) vzero). split.
  - exists vzero. split; [apply H, Ht|]. cbn [leaving s_vel]. f_equal. apply vec_eq; cbn -[EM]; ring.
  - split; (split; [|split]); cbn; try (apply (is_derive_const (V := R_NormedModule))); auto_derive; try exact I; ring.
Qed.
Lemma combine_magnets v E H C : combine_elec_magnetic_field v E H C = combine_elec_magnetic_field v E (vadd C H) vzero.
Proof. unfold combine_elec_magnetic_field. apply vec_eq; cbn -[MU_0]; ring. Qed.
Lemma no_torque Hx : combine_elec_magnetic_field (V3 1 0 0) vzero (V3 Hx 0 0) vzero = vzero.
Proof. unfold combine_elec_magnetic_field. apply vec_eq; cbn -[MU_0]; ring. Qed.
Example C94_speed_nonvacuous T :
  (q_items (b_elec magnet) = nil /\ solves (tracer_field magnet) T leaving /\ b_class magnet = Field3D_BEM /\ forall t, 0 <= t <= T -> off_charges (b_mag magnet) (s_pos (leaving t))) /\
  (q_items (b_elec ring_magnet) = nil /\ solves (tracer_field ring_magnet) T leaving /\ b_class ring_magnet = FieldRadialBEM /\
    forall t, 0 <= t <= T -> in_field ring_magnet (s_pos (leaving t)) /\ off_rings (b_mag ring_magnet) (s_pos (leaving t)) /\ off_rings (b_cur ring_magnet) (s_pos (leaving t))).
Proof.
  split; (split; [reflexivity|]; split; [|split; [reflexivity|]]).
  - apply leaving_solves. intros t Ht. unfold tracer_field, field_3d_traceable. cbn [magnet b_class b_elec b_mag b_cur b_bounds]. cbv zeta. f_equal.
    match goal with |- combine_elec_magnetic_field ?v ?E ?H ?C = _ => replace E with vzero; [replace H with (V3 (vx H) 0 0)|] end.
    + apply no_torque.
    + unfold field_3d, evaluate, source_sum. cbn [leaving s_pos q_items map Rsum fold_right fst snd vzero]. apply vec_eq; cbn [vx vy vz]; [reflexivity| |]; unfold dy1_potential_3d_point, dz1_potential_3d_point; cbn [vx vy vz vzero]; unfold Rdiv; rewrite ?Rminus_0_r; ring.
    + unfold field_3d, evaluate, source_sum. cbn [q_items empty_3d map Rsum fold_right]. apply vec_eq; cbn; ring.
  - intros t Ht x jp [<-|[]] [<-|[]]. cbn [snd leaving s_pos]. unfold vzero. intros E. injection E as E. lra.
  - apply leaving_solves. intros t Ht. assert (N : norm_2d (2 + t) 0 = 2 + t) by (unfold norm_2d; replace ((2 + t) * (2 + t) + 0 * 0) with ((2 + t) * (2 + t)) by ring; apply sqrt_square; lra).
    unfold tracer_field, field_radial_traceable. cbn [ring_magnet b_class b_elec b_mag b_cur b_bounds]. cbv zeta. f_equal. rewrite combine_magnets.
    match goal with |- combine_elec_magnetic_field ?v ?E ?H ?C = _ => replace E with vzero; [replace H with (V3 (vx H) 0 0)|] end.
    + apply no_torque.
    + unfold field_radial, current_field, from_cylinder, evaluate, source_sum. cbn [leaving s_pos s_vel vx vy vz q_items empty_3d map Rsum fold_right fst snd]. rewrite N. destruct (Rle_dec MIN_DISTANCE_AXIS (2 + t)) as [_|X]; [|exfalso; apply X; unfold MIN_DISTANCE_AXIS; lra].
      assert (Z : dz1_potential_radial_ring (2 + t) 0 1 0 = 0) by (unfold dz1_potential_radial_ring; cbv zeta; replace (- (0 - 0)) with 0 by ring; unfold Rdiv; ring).
      rewrite Z. apply vec_eq; cbn [vx vy vz vadd]; unfold Rdiv; ring.
    + unfold field_radial, from_cylinder, evaluate. cbn [q_items empty_2d map Rsum fold_right]. destruct (Rle_dec _ _); apply vec_eq; cbn; ring.
  - intros t Ht. assert (N : norm_2d (2 + t) 0 = 2 + t) by (unfold norm_2d; replace ((2 + t) * (2 + t) + 0 * 0) with ((2 + t) * (2 + t)) by ring; apply sqrt_square; lra).
    unfold in_field, off_rings. cbn [leaving s_pos vx vy vz ring_magnet b_bounds b_elec b_mag b_cur q_items empty_3d]. rewrite N. split; [|split].
    + split; [|exact I]. unfold MIN_DISTANCE_AXIS. lra.
    + intros x jp [<-|[]] [<-|[]]. cbn [snd vx vz]. split; [lra|]. intros E. injection E as E1. lra.
    + intros x jp [].
Qed.
