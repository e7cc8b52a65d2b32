(** C94: energy of traced electrons. *)
From Coq Require Import Reals Lra Lia Psatz.
From Coquelicot Require Import Coquelicot.
From Verif Require Import Base BaseFacts Vec GeomModel FieldModel FieldFacts TracingModel TracingFacts Field3DFacts SeriesFacts Props_Tracing.
From Verif Require Import ConvSpec ConvFacts ConvStep ConvGlobal ExprSpec ExprFacts ExprSmooth BemSmooth Props_Convergence EnergyFacts.
Local Open Scope R_scope.

(** Kinetic plus potential energy, divided by the mass: the backend's constant [EM] is charge over mass of the electron. *)
Definition energy (f : bem) (s : state) : R := norm (s_vel s) ^ 2 / 2 + EM * electrostatic_potential_at_point f (s_pos s).

Lemma ok_inj {A} (a b : A) : Ok a = Ok b -> a = b. Proof. intros H. injection H as H. exact H. Qed.
(** Along every exact trajectory in a three-dimensional field, magnetic or not, the energy is constant. *)
Theorem C94_exact f u T t : b_class f = Field3D_BEM -> solves (tracer_field f) T u ->
  (forall t, 0 <= t <= T -> off_charges (b_elec f) (s_pos (u t))) -> 0 <= t <= T -> energy f (u t) = energy f (u 0).
Proof.
  intros C S Off Ht. apply (zero_derivative (fun t => energy f (u t)) T t); [|exact Ht]. clear t Ht. intros t Ht.
  destruct (S t Ht) as (g & (F & HF & ->) & D). unfold tracer_field in HF. rewrite C in HF. unfold field_3d_traceable in HF. apply ok_inj in HF. cbv zeta iota in HF. subst F.
  apply (is_derive_ext (fun t => dot (s_vel (u t)) (s_vel (u t)) / 2 + EM * potential_3d (s_pos (u t)) (b_elec f))).
  { intros s. unfold energy, electrostatic_potential_at_point. rewrite C. rewrite <- norm_sq. apply (f_equal (fun z => z / 2 + _)). ring. }
  eapply is_derive_to.
  - apply (is_derive_plus (V := R_NormedModule)); [apply (kinetic_along u t _ D)|]. apply (is_derive_scal (fun t => potential_3d (s_pos (u t)) (b_elec f))). apply (potential_along (fun t => s_pos (u t)) t (s_vel (u t))); [exact (proj1 D)|apply Off; exact Ht].
  - unfold plus; cbn [s_vel]. cbn -[combine_elec_magnetic_field field_3d dot EM].
    set (W := combine_elec_magnetic_field _ _ _ _). assert (E : dot (vscale EM W) (s_vel (u t)) = EM * dot W (s_vel (u t))) by (unfold dot, vscale; cbn -[EM W]; ring).
    rewrite E. unfold W. rewrite lorentz_work. unfold dot. ring.
Qed.
Print Assumptions C94_exact.

(** Magnetic fields, those of coils and magnets with rotational symmetry too, change only the direction of the velocity. *)
Theorem C94_magnetic f u T t : q_items (b_elec f) = [] -> solves (tracer_field f) T u -> 0 <= t <= T -> norm (s_vel (u t)) = norm (s_vel (u 0)).
Proof.
  intros NoE S Ht. assert (E : dot (s_vel (u t)) (s_vel (u t)) / 2 = dot (s_vel (u 0)) (s_vel (u 0)) / 2).
  { apply (zero_derivative (fun t => dot (s_vel (u t)) (s_vel (u t)) / 2) T t); [|exact Ht]. clear t Ht. intros t Ht.
    destruct (S t Ht) as (g & (F & HF & ->) & D). eapply is_derive_to; [apply (kinetic_along u t _ D)|]. cbn [s_vel].
    assert (Z : dot F (s_vel (u t)) = 0); [|unfold dot, vscale in *; cbn -[EM] in *; rewrite <- (Rmult_0_r EM), <- Z; ring].
    assert (G : forall b H C, Ok (if b : bool then combine_elec_magnetic_field (s_vel (u t)) vzero H C else vzero) = Ok F -> dot F (s_vel (u t)) = 0).
    { intros [] H C HW; apply ok_inj in HW; subst F; [rewrite lorentz_work|]; unfold dot, vzero; cbn; ring. }
    unfold tracer_field in HF. destruct (b_class f).
    - unfold field_radial_traceable in HF. cbv zeta in HF. replace (field_radial (s_pos (u t)) (b_elec f)) with vzero in HF; [exact (G _ _ _ HF)|].
      unfold field_radial, evaluate. rewrite NoE. cbn [map Rsum]. unfold from_cylinder. cbv zeta. destruct (Rle_dec _ _); unfold vzero; apply vec_eq; cbn; ring.
    - unfold field_3d_traceable in HF. cbv zeta in HF. replace (field_3d (s_pos (u t)) (b_elec f)) with vzero in HF; [exact (G true _ _ HF)|].
      unfold field_3d, evaluate. rewrite NoE. cbn [map Rsum]. apply vec_eq; cbn; ring. }
  apply Rsqr_inj; [apply norm_nonneg|apply norm_nonneg|]. unfold Rsqr. rewrite !norm_sq. lra.
Qed.
Print Assumptions C94_magnetic.

(** The kinetic energy where an electron arrives: the one it started with plus what the potential difference gives it. *)
Theorem C94_arrival f u T t eV direction v w x : b_class f = Field3D_BEM -> solves (tracer_field f) T u ->
  (forall t, 0 <= t <= T -> off_charges (b_elec f) (s_pos (u t))) -> 0 <= t <= T ->
  velocity_vec eV direction = Ok v -> convert_velocity_to_SI v = Ok w -> u 0 = mkstate x w ->
  m_e * norm (s_vel (u t)) ^ 2 / 2 = e_charge * eV - m_e * EM * (electrostatic_potential_at_point f (s_pos (u t)) - electrostatic_potential_at_point f x).
Proof.
  intros C S Off Ht HV HW U0. pose proof (C94_exact f u T t C S Off Ht) as E. unfold energy in E. rewrite U0 in E. cbn [s_pos s_vel] in E.
  destruct (C39_energy eV direction v w HV HW) as (K & _).
  rewrite <- K. assert (M : m_e <> 0) by (unfold m_e; lra). replace (m_e * norm (s_vel (u t)) ^ 2 / 2) with (m_e * (norm (s_vel (u t)) ^ 2 / 2)) by field.
  replace (norm (s_vel (u t)) ^ 2 / 2) with (norm w ^ 2 / 2 + EM * electrostatic_potential_at_point f x - EM * electrostatic_potential_at_point f (s_pos (u t))) by lra. field.
Qed.
Print Assumptions C94_arrival.

Lemma energy_lipschitz f u T rho M D1 D2 D3 D4 : b_class f = Field3D_BEM -> 0 <= T -> solves (tracer_field f) T u -> smooth_along (tracer_field f) u T rho M D1 D2 D3 D4 ->
  (forall t, 0 <= t <= T -> off_charges (b_elec f) (s_pos (u t))) ->
  exists L d0, 0 <= L /\ 0 < d0 /\ forall t y, 0 <= t <= T -> snorm (ssub y (u t)) <= d0 -> Rabs (energy f y - energy f (u t)) <= L * snorm (ssub y (u t)).
Proof.
  intros C HT S Sm Off. assert (Hu : forall t, 0 <= t <= T -> exists g, has_derivative u t g) by (intros t Ht; destruct (S t Ht) as (g & _ & Hg); exists g; exact Hg).
  destruct (keeps_clear u T (b_elec f) Hu Off) as (r2 & P2 & K2). set (r := r2 / 2). assert (Hr : 0 < r) by (unfold r; lra).
  destruct (sm_radius _ _ _ _ _ _ _ _ _ Sm) as [Rho MP].
  exists ((1 / 2 + M) + Rabs EM * (Lip (b_elec f) / r ^ 2)), (Rmin 1 r). assert (LP : 0 <= Lip (b_elec f) / r ^ 2) by (apply Rmult_le_pos; [apply Lip_nonneg|left; apply Rinv_0_lt_compat, pow_lt; exact Hr]).
  split; [pose proof (Rabs_pos EM); nra|]. split; [apply Rmin_glb_lt; lra|]. intros t y Ht Hy. pose proof (Rmin_l 1 r). pose proof (Rmin_r 1 r).
  set (d := snorm (ssub y (u t))) in *. destruct (snorm_parts (ssub y (u t))) as [Np Nv]. fold d in Np, Nv.
  replace (s_pos (ssub y (u t))) with (vsub (s_pos y) (s_pos (u t))) in Np by (apply vec_eq; cbn; ring). replace (s_vel (ssub y (u t))) with (vsub (s_vel y) (s_vel (u t))) in Nv by (apply vec_eq; cbn; ring).
  assert (W : norm (s_vel (u t)) <= M).
  { destruct (sm_taylor _ _ _ _ _ _ _ _ _ Sm t szero Ht) as (g0 & g & (F & _ & E) & _ & B & _); [unfold snorm, szero, vzero; cbn; rewrite Rabs_R0; lra|].
    destruct (snorm_parts g0) as [A _]. rewrite E in A at 1. cbn [s_pos] in A. lra. }
  assert (C1 : clear_of (2 * r) (b_elec f) (s_pos (u t))) by (unfold r; replace (2 * (r2 / 2)) with r2 by field; apply K2; exact Ht).
  assert (C2 : clear_of r (b_elec f) (s_pos y)) by (apply (near_clear r _ (s_pos (u t))); [exact C1|lra]).
  assert (C3 : clear_of r (b_elec f) (s_pos (u t))) by (intros x jp Hx Hj; specialize (C1 x jp Hx Hj); lra).
  pose proof (potential_lipschitz _ _ _ _ Hr C2 C3) as PL. pose proof (kinetic_lipschitz _ _ _ _ W Nv) as KL.
  assert (D0 : 0 <= d) by (pose proof (norm_nonneg (vsub (s_pos y) (s_pos (u t)))); lra).
  unfold energy, electrostatic_potential_at_point. rewrite C.
  replace (norm (s_vel y) ^ 2) with (dot (s_vel y) (s_vel y)) by (rewrite <- norm_sq; ring). replace (norm (s_vel (u t)) ^ 2) with (dot (s_vel (u t)) (s_vel (u t))) by (rewrite <- norm_sq; ring).
  set (k1 := dot (s_vel y) (s_vel y)) in *. set (k2 := dot (s_vel (u t)) (s_vel (u t))) in *. set (p1 := potential_3d (s_pos y) (b_elec f)) in *. set (p2 := potential_3d (s_pos (u t)) (b_elec f)) in *.
  replace (k1 / 2 + EM * p1 - (k2 / 2 + EM * p2)) with ((k1 / 2 - k2 / 2) + EM * (p1 - p2)) by ring.
  eapply Rle_trans; [apply Rabs_triang|]. rewrite Rmult_plus_distr_r. apply Rplus_le_compat.
  - eapply Rle_trans; [exact KL|]. apply Rmult_le_compat_r; lra.
  - rewrite Rabs_mult, Rmult_assoc. apply Rmult_le_compat_l; [apply Rabs_pos|]. eapply Rle_trans; [exact PL|]. apply Rmult_le_compat_l; [exact LP|exact Np].
Qed.
(** Computed trajectories conserve the energy up to the fifth power of the largest step. *)
Theorem C94_computed f u T : b_class f = Field3D_BEM -> 0 <= T -> solves (tracer_field f) T u ->
  (forall t, 0 <= t <= T -> off_charges (b_elec f) (s_pos (u t)) /\ off_charges (b_mag f) (s_pos (u t))) ->
  exists C H0, 0 <= C /\ 0 < H0 /\ forall fuel inner bounds atol x v w samples H n t y, 0 < atol ->
    tracer_call fuel inner f bounds atol x v = Ok samples -> convert_velocity_to_SI v = Ok w -> u 0 = mkstate x w -> nth_error samples n = Some (t, y) -> t <= T ->
    0 <= H <= H0 -> (forall k tk yk tk' yk', (k < n)%nat -> nth_error samples k = Some (tk, yk) -> nth_error samples (S k) = Some (tk', yk') -> tk' - tk <= H) ->
    Rabs (energy f y - energy f (mkstate x w)) <= C * H ^ 5.
Proof.
  intros Cl HT Sol Off. destruct (bem_smooth f u T Cl HT Sol Off) as (rho & M & D1 & D2 & D3 & D4 & Sm).
  destruct (energy_lipschitz f u T rho M D1 D2 D3 D4 Cl HT Sol Sm (fun t Ht => proj1 (Off t Ht))) as (L & d0 & HL & Hd & Q).
  destruct (C85_three_d f u T Cl HT Sol Off) as (C & H0 & HC & HH & G).
  set (H1 := Rmin H0 (Rmin 1 (d0 / (C + 1)))).
  assert (D : 0 < d0 / (C + 1)) by (apply Rdiv_lt_0_compat; lra). exists (L * C), H1. split; [nra|]. split; [unfold H1; repeat apply Rmin_glb_lt; lra|].
  intros fuel inner bounds atol x v w samples H n t y Ha Tr Hw U0 Hn Ht HHb Small.
  assert (B1 : H <= H0) by (eapply Rle_trans; [apply (proj2 HHb)|apply Rmin_l]).
  assert (B2 : H <= 1) by (eapply Rle_trans; [apply (proj2 HHb)|]; unfold H1; eapply Rle_trans; [apply Rmin_r|apply Rmin_l]).
  assert (B3 : H <= d0 / (C + 1)) by (eapply Rle_trans; [apply (proj2 HHb)|]; unfold H1; eapply Rle_trans; [apply Rmin_r|apply Rmin_r]).
  pose proof (G fuel inner bounds atol x v w samples H n t y Ha Tr Hw U0 Hn Ht ltac:(lra) Small) as E.
  assert (P4 : 0 <= H ^ 4 <= 1) by (split; [apply pow_le; lra|]; rewrite <- (pow1 4); apply pow_incr; lra).
  assert (P5 : H ^ 5 <= H) by (replace (H ^ 5) with (H * H ^ 4) by ring; nra).
  assert (P5' : 0 <= H ^ 5) by (apply pow_le; lra).
  assert (N : snorm (ssub y (u t)) <= d0).
  { eapply Rle_trans; [exact E|]. apply Rle_trans with ((C + 1) * H); [nra|]. apply Rmult_le_compat_l with (r := C + 1) in B3; [|lra]. replace ((C + 1) * (d0 / (C + 1))) with d0 in B3 by (field; lra). exact B3. }
  assert (T0 : 0 <= t).
  { destruct (C37_tracer _ _ _ _ _ _ _ _ Ha Tr) as (w' & Hw' & First & _ & Step). assert (Mono : forall k tk yk, nth_error samples k = Some (tk, yk) -> 0 <= tk).
    { induction k as [|k IH]; intros tk yk Hk; [rewrite First in Hk; injection Hk as <- _; lra|]. destruct (nth_error samples k) as [[t0 y0]|] eqn:E0.
      - destruct (Step k t0 y0 tk yk E0 Hk) as (_ & Lt & _). specialize (IH t0 y0 eq_refl). lra.
      - apply nth_error_None in E0. assert (nth_error samples (S k) <> None) by congruence. apply nth_error_Some in H2. lia. }
    exact (Mono n t y Hn). }
  rewrite <- U0, <- (C94_exact f u T t Cl Sol (fun t Ht => proj1 (Off t Ht)) (conj T0 Ht)). eapply Rle_trans; [apply (Q t y (conj T0 Ht) N)|]. rewrite Rmult_assoc. apply Rmult_le_compat_l; [exact HL|exact E].
Qed.
Print Assumptions C94_computed.
(** The hypotheses are met: the electron that circles around a charge; its energy is not zero. *)
Example C94_nonvacuous T : b_class attractor = Field3D_BEM /\ solves (tracer_field attractor) T orbit /\
  (forall t, 0 <= t <= T -> off_charges (b_elec attractor) (s_pos (orbit t)) /\ off_charges (b_mag attractor) (s_pos (orbit t))) /\ energy attractor (orbit 0) = - 1 / 2.
Proof.
  destruct (C84_nonvacuous T) as (A & B & C). split; [exact A|]. split; [exact B|]. split; [exact C|].
  unfold energy, electrostatic_potential_at_point, potential_3d, evaluate, source_sum, potential_3d_point. cbn [attractor b_class b_elec q_items map Rsum fst snd orbit s_pos s_vel]. rewrite cos_0, sin_0.
  assert (N : norm (vsub vzero (V3 1 0 0)) = 1) by (apply norm_unique; [lra|unfold dot; cbn; lra]). assert (N' : norm (V3 (- 0) 1 0) = 1) by (apply norm_unique; [lra|unfold dot; cbn; lra]).
  rewrite N, N'. pose proof EM_nonzero. pose proof PI_neq0. field. split; assumption.
Qed.
