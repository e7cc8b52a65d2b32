(** C99: time reversal. *)
From Coq Require Import Reals Lra Lia Psatz.
From Coquelicot Require Import Coquelicot.
From Verif Require Import Base BaseFacts Vec GeomModel OutwardFacts FieldModel FieldFacts SolverModel SeriesModel DispatchModel TracingModel TracingFacts ConvSpec ConvStep EnergyFacts BemSmooth RadialSmooth SeriesFacts Props_Convergence Props_RadialConvergence Field3DFacts MotionSolve Props_Scale ReverseModel.
Local Open Scope R_scope.

Lemma reversed_lorentz v E H : combine_elec_magnetic_field (vscale (-1) v) E (vscale (-1) H) vzero = combine_elec_magnetic_field v E H vzero.
Proof. unfold combine_elec_magnetic_field. apply vec_eq; cbn -[MU_0]; ring. Qed.
Lemma reversed_tracer f f' s : magnets_reversed f f' -> tracer_field f' (mkstate (s_pos s) (vscale (-1) (s_vel s))) = tracer_field f s.
Proof.
  intros (Cl & Bd & Fl). destruct (Fl (s_pos s)) as (E & M). unfold electrostatic_field_at_point, magnetostatic_field_at_point in E, M.
  unfold tracer_field, field_radial_traceable, field_3d_traceable. rewrite Cl in *. cbv zeta. cbn [s_pos s_vel]. destruct (b_class f).
  - rewrite Bd. f_equal. match goal with |- (if ?b then _ else _) = (if ?b' then _ else _) => change b' with b; destruct b end; [|reflexivity]. rewrite !(combine_sum _ _ (field_radial _ _)). cbn [s_pos s_vel]. rewrite E, M. apply reversed_lorentz.
  - f_equal. cbn [s_pos s_vel]. rewrite E, M. apply reversed_lorentz.
Qed.
Lemma backwards_solves (field field' : field_fun) T u : (forall s, field' (mkstate (s_pos s) (vscale (-1) (s_vel s))) = field s) -> solves field T u -> solves field' T (backwards T u).
Proof.
  intros Hf S t Ht. destruct (S (T - t) ltac:(lra)) as (g & (F & HF & ->) & (Dx & Dy & Dz) & (Ex & Ey & Ez)).
  exists (mkstate (vscale (-1) (s_vel (u (T - t)))) (vscale EM F)). split.
  - exists F. split; [|reflexivity]. unfold backwards. rewrite Hf. exact HF.
  - cbn [s_pos s_vel vscale vx vy vz] in *.
    assert (Rev : forall (g : R -> R) d, is_derive g (T - t) d -> is_derive (fun t => g (T - t)) t (-1 * d)).
    { intros g d H. eapply is_derive_to; [apply (is_derive_comp g (fun t => T - t) t d (-1)); [exact H|auto_derive; [exact I|ring]]|]. unfold scal; cbn. unfold mult; cbn. ring. }
    assert (Rev2 : forall (g : R -> R) d, is_derive g (T - t) d -> is_derive (fun t => -1 * g (T - t)) t d).
    { intros g d H. eapply is_derive_to; [apply is_derive_scal, Rev, H|]. cbn. unfold mult; cbn. ring. }
    split; (split; [|split]); cbn [backwards vscale s_pos s_vel vx vy vz].
    + exact (Rev _ _ Dx).
    + exact (Rev _ _ Dy).
    + exact (Rev _ _ Dz).
    + exact (Rev2 _ _ Ex).
    + exact (Rev2 _ _ Ey).
    + exact (Rev2 _ _ Ez).
Qed.

(** Every exact trajectory run backwards is an exact trajectory in the same electric and the opposite magnetic field. *)
Theorem C99_reversal f f' T u : magnets_reversed f f' -> solves (tracer_field f) T u -> solves (tracer_field f') T (backwards T u).
Proof. intros M. apply backwards_solves. intros s. apply reversed_tracer, M. Qed.
Print Assumptions C99_reversal.
Lemma no_magnets f : bem_is_magnetostatic f = false -> magnets_reversed f f.
Proof.
  intros M. split; [reflexivity|]. split; [reflexivity|]. intros p. split; [reflexivity|]. unfold bem_is_magnetostatic in M. apply Bool.orb_false_elim in M. destruct M as [M1 M2].
  apply Bool.negb_false_iff, Nat.eqb_eq, length_zero_iff_nil in M1. apply Bool.negb_false_iff, Nat.eqb_eq, length_zero_iff_nil in M2.
  unfold magnetostatic_field_at_point, current_field, field_radial, field_3d, from_cylinder, evaluate. cbv zeta. rewrite M1, M2. cbn [map Rsum fold_right]. destruct (b_class f); [destruct (Rle_dec _ _)|]; apply vec_eq; cbn; lra.
Qed.
(** In an electric field every exact trajectory is retraced by an electron sent back with the opposite velocity. *)
Theorem C99_retraced f T u : bem_is_magnetostatic f = false -> solves (tracer_field f) T u ->
  solves (tracer_field f) T (backwards T u) /\ backwards T u 0 = mkstate (s_pos (u T)) (vscale (-1) (s_vel (u T))) /\ backwards T u T = mkstate (s_pos (u 0)) (vscale (-1) (s_vel (u 0))).
Proof.
  intros M S. split; [apply (C99_reversal f f T u (no_magnets f M) S)|]. unfold backwards. rewrite Rminus_0_r, Rminus_diag_eq by reflexivity. split; reflexivity.
Qed.
Print Assumptions C99_retraced.
(** Axial fields: if the electric values agree and the magnetic ones are opposite. *)
Theorem C99_axial a a' T u : (forall p, axial_field true a' p = axial_field true a p /\ axial_field false a' p = rmap (vscale (-1)) (axial_field false a p)) ->
  solves (field_radial_derivs_traceable a) T u -> solves (field_radial_derivs_traceable a') T (backwards T u).
Proof.
  intros H. apply backwards_solves. intros s. unfold field_radial_derivs_traceable. cbn [s_pos s_vel]. destruct (H (s_pos s)) as [-> ->].
  destruct (axial_field true a (s_pos s)); [|reflexivity]. cbn [bind]. destruct (axial_field false a (s_pos s)); [|reflexivity]. cbn [rmap bind]. f_equal. apply reversed_lorentz.
Qed.
Print Assumptions C99_axial.

(** The computed trajectory of an electron sent back from the end of an exact trajectory follows it backwards, up to the fifth power of the step; so it comes back to the start. *)
Definition follows_back (f : bem) (T : R) (u : R -> state) : Prop :=
  exists C H0, 0 <= C /\ 0 < H0 /\ forall fuel inner bounds atol v samples H n t y, 0 < atol ->
    convert_velocity_to_SI v = Ok (vscale (-1) (s_vel (u T))) -> tracer_call fuel inner f bounds atol (s_pos (u T)) v = Ok samples ->
    nth_error samples n = Some (t, y) -> t <= T ->
    0 <= H <= H0 -> (forall k tk yk tk' yk', (k < n)%nat -> nth_error samples k = Some (tk, yk) -> nth_error samples (S k) = Some (tk', yk') -> tk' - tk <= H) ->
    snorm (ssub y (mkstate (s_pos (u (T - t))) (vscale (-1) (s_vel (u (T - t)))))) <= C * H ^ 5.
Theorem C99_computed f f' u T : magnets_reversed f f' -> 0 <= T -> solves (tracer_field f) T u ->
  (b_class f = Field3D_BEM /\ forall t, 0 <= t <= T -> off_charges (b_elec f') (s_pos (u t)) /\ off_charges (b_mag f') (s_pos (u t))) \/
  (b_class f = FieldRadialBEM /\ forall t, 0 <= t <= T -> in_field f (s_pos (u t)) /\ off_rings (b_elec f') (s_pos (u t)) /\ off_rings (b_mag f') (s_pos (u t)) /\ off_rings (b_cur f') (s_pos (u t))) ->
  follows_back f' T u.
Proof.
  intros M HT S [[Cl Off]|[Cl Off]]; pose proof M as (Cl' & Bd & _); rewrite Cl in Cl'.
  - destruct (C85_three_d f' (backwards T u) T Cl' HT (C99_reversal f f' T u M S)) as (C & H0 & HC & HH & Q); [intros t Ht; apply (Off (T - t)); lra|].
    exists C, H0. split; [exact HC|]. split; [exact HH|]. intros fuel inner bounds atol v samples H n t y Ha Hv Tr Hn Ht HHH St.
    apply (Q fuel inner bounds atol _ v _ samples H n t y Ha Tr Hv); try assumption. unfold backwards. rewrite Rminus_0_r. reflexivity.
  - destruct (C85_radial f' (backwards T u) T Cl' HT (C99_reversal f f' T u M S)) as (C & H0 & HC & HH & Q).
    { intros t Ht. destruct (Off (T - t) ltac:(lra)) as (I & O). split; [|exact O]. cbn [backwards s_pos]. unfold in_field in *. rewrite Bd. exact I. }
    exists C, H0. split; [exact HC|]. split; [exact HH|]. intros fuel inner bounds atol v samples H n t y Ha Hv Tr Hn Ht HHH St.
    apply (Q fuel inner bounds atol _ v _ samples H n t y Ha Tr Hv); try assumption. unfold backwards. rewrite Rminus_0_r. reflexivity.
Qed.
Print Assumptions C99_computed.

(** The hypotheses are met by the electrons that circle around a charge and around a charged ring (C84); and by every pair of fields that
    differ in the sign of the magnetic charges and of the currents. *)
Lemma evaluate_opposite K c : evaluate K (charges_mul (-1) c) = - evaluate K c.
Proof.
  unfold evaluate, charges_mul. cbn [q_items]. induction (q_items c) as [|x l IH]; cbn [map Rsum fold_right fst snd]; [lra|].
  cbn [map Rsum fold_right fst snd] in IH. unfold Rsum in *. rewrite IH. lra.
Qed.
Definition opposite_magnets (f : bem) : bem := mkbem (b_class f) (b_elec f) (charges_mul (-1) (b_mag f)) (charges_mul (-1) (b_cur f)) (b_bounds f).
Lemma opposite_magnets_reversed f : magnets_reversed f (opposite_magnets f).
Proof.
  split; [reflexivity|]. split; [reflexivity|]. intros p. unfold electrostatic_field_at_point, magnetostatic_field_at_point. cbn [opposite_magnets b_class b_elec b_mag b_cur]. split; [reflexivity|].
  destruct (b_class f).
  - unfold field_radial, current_field, from_cylinder. cbv zeta. rewrite !evaluate_opposite. destruct (Rle_dec _ _); apply vec_eq; cbn; ring.
  - unfold field_3d. rewrite !evaluate_opposite. apply vec_eq; cbn; ring.
Qed.
Example C99_nonvacuous T : 0 <= T ->
  (magnets_reversed attractor attractor /\ solves (tracer_field attractor) T orbit /\ follows_back attractor T orbit) /\
  (magnets_reversed ring_field ring_field /\ solves (tracer_field ring_field) T ring_orbit /\ follows_back ring_field T ring_orbit) /\
  (forall f, magnets_reversed f (opposite_magnets f)).
Proof.
  intros HT. split; [|split; [|exact opposite_magnets_reversed]].
  - destruct (C84_nonvacuous T) as (A & B & C). assert (M : magnets_reversed attractor attractor) by (apply no_magnets; reflexivity). split; [exact M|]. split; [exact B|]. apply (C99_computed attractor attractor orbit T M HT B). left. split; [exact A|exact C].
  - destruct (C84_radial_nonvacuous T) as (A & B & C). assert (M : magnets_reversed ring_field ring_field) by (apply no_magnets; reflexivity). split; [exact M|]. split; [exact B|]. apply (C99_computed ring_field ring_field ring_orbit T M HT B). right. split; [exact A|exact C].
Qed.
