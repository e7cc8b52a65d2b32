(** C96, computed trajectories: the angular momentum about the axis. *)
From Coq Require Import Reals Lra Lia Psatz.
From Coquelicot Require Import Coquelicot.
From Verif Require Import Base BaseFacts Vec GeomModel OutwardFacts FieldModel FieldFacts TracingModel TracingFacts Props_Tracing ConvSpec ConvStep EnergyFacts BemSmooth RadialSmooth SeriesFacts Props_RadialConvergence Props_Symmetry.
Local Open Scope R_scope.

(** Per unit of mass. *)
Definition angular_momentum (s : state) : R := vx (s_pos s) * vy (s_vel s) - vy (s_pos s) * vx (s_vel s).

Lemma bounded_component (g : R -> R) T : 0 <= T -> (forall t, 0 <= t <= T -> exists d, is_derive g t d) -> exists B, 0 <= B /\ forall t, 0 <= t <= T -> Rabs (g t) <= B.
Proof.
  intros HT H. destruct (continuity_ab_maj (fun t => Rabs (g t)) 0 T HT) as (m & Hm & _).
  - intros c Hc. destruct (H c Hc) as (d & D). apply (continuity_pt_comp g Rabs); [|apply Rcontinuity_abs]. apply derivable_continuous_pt. exists d. apply is_derive_Reals, D.
  - exists (Rabs (g m)). split; [apply Rabs_pos|exact Hm].
Qed.
Lemma product_near a b a' b' d B : Rabs (a' - a) <= d -> Rabs (b' - b) <= d -> Rabs a <= B -> Rabs b <= B -> d <= 1 -> Rabs (a' * b' - a * b) <= (2 * B + 1) * d.
Proof.
  intros Ha Hb HA HB Hd. replace (a' * b' - a * b) with (a * (b' - b) + (a' - a) * b + (a' - a) * (b' - b)) by ring.
  pose proof (Rabs_pos (a' - a)). pose proof (Rabs_pos (b' - b)). pose proof (Rabs_pos a). pose proof (Rabs_pos b).
  eapply Rle_trans; [apply Rabs_triang|]. eapply Rle_trans; [apply Rplus_le_compat_r, Rabs_triang|]. rewrite !Rabs_mult.
  assert (Rabs a * Rabs (b' - b) <= B * d) by (apply Rmult_le_compat; lra). assert (Rabs (a' - a) * Rabs b <= d * B) by (apply Rmult_le_compat; lra).
  assert (Rabs (a' - a) * Rabs (b' - b) <= d * 1) by (apply Rmult_le_compat; lra). lra.
Qed.

(** The computed trajectory of an electron in an electric field with rotational symmetry conserves it up to the fifth power of the largest step. *)
Theorem C96_computed f u T : b_class f = FieldRadialBEM -> bem_is_magnetostatic f = false -> 0 <= T -> solves (tracer_field f) T u ->
  (forall t, 0 <= t <= T -> in_field f (s_pos (u t)) /\ off_rings (b_elec f) (s_pos (u t))) ->
  exists C H0, 0 <= C /\ 0 < H0 /\ forall fuel inner bounds atol x v w samples H n t y, 0 < atol ->
    tracer_call fuel inner f bounds atol x v = Ok samples -> convert_velocity_to_SI v = Ok w -> u 0 = mkstate x w -> nth_error samples n = Some (t, y) -> t <= T ->
    0 <= H <= H0 -> (forall k tk yk tk' yk', (k < n)%nat -> nth_error samples k = Some (tk, yk) -> nth_error samples (S k) = Some (tk', yk') -> tk' - tk <= H) ->
    Rabs (angular_momentum y - angular_momentum (mkstate x w)) <= C * H ^ 5.
Proof.
  intros Cl Mg HT Sol Off.
  assert (NoM : q_items (b_mag f) = nil /\ q_items (b_cur f) = nil).
  { unfold bem_is_magnetostatic in Mg. apply Bool.orb_false_elim in Mg. destruct Mg as [M1 M2]. apply Bool.negb_false_iff, Nat.eqb_eq, length_zero_iff_nil in M1. apply Bool.negb_false_iff, Nat.eqb_eq, length_zero_iff_nil in M2. split; assumption. }
  destruct (C85_radial f u T Cl HT Sol) as (C & H0 & HC & HH & G).
  { intros t Ht. destruct (Off t Ht) as [I O]. split; [exact I|]. split; [exact O|]. unfold off_rings. rewrite (proj1 NoM), (proj2 NoM). split; intros ? ? []. }
  assert (Bd : forall g : state -> R, (forall t, 0 <= t <= T -> exists d, is_derive (fun t => g (u t)) t d) -> exists B, 0 <= B /\ forall t, 0 <= t <= T -> Rabs (g (u t)) <= B) by (intros g; apply (bounded_component (fun t => g (u t)) T HT)).
  destruct (Bd (fun s => vx (s_pos s))) as (B1 & P1 & Q1); [intros t Ht; destruct (Sol t Ht) as (g & _ & (D & _ & _) & _); eexists; exact D|].
  destruct (Bd (fun s => vy (s_pos s))) as (B2 & P2 & Q2); [intros t Ht; destruct (Sol t Ht) as (g & _ & (_ & D & _) & _); eexists; exact D|].
  destruct (Bd (fun s => vx (s_vel s))) as (B3 & P3 & Q3); [intros t Ht; destruct (Sol t Ht) as (g & _ & _ & (D & _ & _)); eexists; exact D|].
  destruct (Bd (fun s => vy (s_vel s))) as (B4 & P4 & Q4); [intros t Ht; destruct (Sol t Ht) as (g & _ & _ & (_ & D & _)); eexists; exact D|].
  set (B := B1 + B2 + B3 + B4). set (H1 := Rmin H0 (Rmin 1 (1 / (C + 1)))).
  assert (D : 0 < 1 / (C + 1)) by (apply Rdiv_lt_0_compat; lra). exists (2 * (2 * B + 1) * C), H1. split; [apply Rmult_le_pos; [unfold B; lra|exact HC]|]. split; [unfold H1; repeat apply Rmin_glb_lt; lra|].
  intros fuel inner bounds atol x v w samples H n t y Ha Tr Hw U0 Hn Ht HHb Small.
  assert (L1 : H <= H0) by (eapply Rle_trans; [apply (proj2 HHb)|apply Rmin_l]).
  assert (L2 : H <= 1) by (eapply Rle_trans; [apply (proj2 HHb)|]; unfold H1; eapply Rle_trans; [apply Rmin_r|apply Rmin_l]).
  assert (L3 : H <= 1 / (C + 1)) by (eapply Rle_trans; [apply (proj2 HHb)|]; unfold H1; eapply Rle_trans; [apply Rmin_r|apply Rmin_r]).
  pose proof (G fuel inner bounds atol x v w samples H n t y Ha Tr Hw U0 Hn Ht ltac:(lra) Small) as E.
  assert (P : 0 <= H ^ 4 <= 1) by (split; [apply pow_le; lra|]; rewrite <- (pow1 4); apply pow_incr; lra).
  assert (P5 : H ^ 5 <= H) by (replace (H ^ 5) with (H * H ^ 4) by ring; nra).
  assert (P5' : 0 <= H ^ 5) by (apply pow_le; lra).
  set (d := snorm (ssub y (u t))) in *.
  assert (N : d <= 1).
  { eapply Rle_trans; [exact E|]. apply Rle_trans with ((C + 1) * H); [nra|]. apply Rmult_le_compat_l with (r := C + 1) in L3; [|lra]. replace ((C + 1) * (1 / (C + 1))) with 1 in L3 by (field; lra). exact L3. }
  assert (T0 : 0 <= t).
  { destruct (C37_tracer _ _ _ _ _ _ _ _ Ha Tr) as (w' & Hw' & First & _ & Step). assert (Mono : forall k tk yk, nth_error samples k = Some (tk, yk) -> 0 <= tk).
    { induction k as [|k IH]; intros tk yk Hk; [rewrite First in Hk; injection Hk as <- _; lra|]. destruct (nth_error samples k) as [[t0 y0]|] eqn:E0.
      - destruct (Step k t0 y0 tk yk E0 Hk) as (_ & Lt & _). specialize (IH t0 y0 eq_refl). lra.
      - apply nth_error_None in E0. assert (X : nth_error samples (S k) <> None) by congruence. apply nth_error_Some in X. lia. }
    exact (Mono n t y Hn). }
  assert (Ht' : 0 <= t <= T) by lra. specialize (Q1 t Ht'). specialize (Q2 t Ht'). specialize (Q3 t Ht'). specialize (Q4 t Ht'). cbv beta in Q1, Q2, Q3, Q4.
  assert (Near : Rabs (vx (s_pos y) - vx (s_pos (u t))) <= d /\ Rabs (vy (s_pos y) - vy (s_pos (u t))) <= d /\ Rabs (vx (s_vel y) - vx (s_vel (u t))) <= d /\ Rabs (vy (s_vel y) - vy (s_vel (u t))) <= d).
  { assert (X : forall a b c d' e' f', Rabs a + Rabs b + Rabs c + (Rabs d' + Rabs e' + Rabs f') = d -> Rabs a <= d /\ Rabs b <= d /\ Rabs d' <= d /\ Rabs e' <= d).
    { intros a b c d' e' f' <-. pose proof (Rabs_pos a). pose proof (Rabs_pos b). pose proof (Rabs_pos c). pose proof (Rabs_pos d'). pose proof (Rabs_pos e'). pose proof (Rabs_pos f'). repeat split; lra. }
    assert (M : forall p q, p - q = p + -1 * q) by (intros; ring). rewrite !M. eapply X. reflexivity. }
  destruct Near as (N1 & N2 & N3 & N4).
  pose proof (C96_angular_momentum f T u t Cl Mg Sol Ht') as A. rewrite U0 in A. unfold angular_momentum at 2. rewrite <- A. unfold angular_momentum.
  assert (X1 : Rabs (vx (s_pos y) * vy (s_vel y) - vx (s_pos (u t)) * vy (s_vel (u t))) <= (2 * B + 1) * d) by (apply product_near; unfold B; lra).
  assert (X2 : Rabs (vy (s_pos y) * vx (s_vel y) - vy (s_pos (u t)) * vx (s_vel (u t))) <= (2 * B + 1) * d) by (apply product_near; unfold B; lra).
  apply Rle_trans with (2 * (2 * B + 1) * d).
  - apply Rabs_le_between in X1, X2. apply Rabs_le_between. lra.
  - rewrite Rmult_assoc. replace (2 * (2 * B + 1) * C * H ^ 5) with (2 * ((2 * B + 1) * (C * H ^ 5))) by ring. apply Rmult_le_compat_l; [lra|]. apply Rmult_le_compat_l; [unfold B; lra|exact E].
Qed.
Print Assumptions C96_computed.
(** The hypotheses are met by the electron that circles around a charged ring, whose angular momentum is not zero. *)
Example C96_computed_nonvacuous T : b_class ring_field = FieldRadialBEM /\ bem_is_magnetostatic ring_field = false /\ solves (tracer_field ring_field) T ring_orbit /\
  (forall t, 0 <= t <= T -> in_field ring_field (s_pos (ring_orbit t)) /\ off_rings (b_elec ring_field) (s_pos (ring_orbit t))) /\ angular_momentum (ring_orbit 0) = 4 * turning.
Proof.
  destruct (C84_radial_nonvacuous T) as (A & B & C). split; [exact A|]. split; [reflexivity|]. split; [exact B|]. split; [intros t Ht; destruct (C t Ht) as (I & O & _); split; assumption|].
  unfold angular_momentum, ring_orbit. cbn [s_pos s_vel vx vy]. rewrite Rmult_0_r, cos_0, sin_0. ring.
Qed.
