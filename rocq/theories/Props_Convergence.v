(** C84, C85: accuracy of traced trajectories. *)
From Coq Require Import Reals Lra Lia Psatz.
From Coquelicot Require Import Coquelicot.
From Verif Require Import Base BaseFacts Vec GeomModel FieldModel TracingModel TracingFacts Field3DFacts SeriesFacts Props_Tracing.
From Verif Require Import ConvSpec ConvFacts ConvStep ConvLocal ConvGlobal ExprSpec ExprFacts ExprSmooth BemSmooth.
Local Open Scope R_scope.

Lemma max_abs_snorm s : max_abs (s_pos s) <= snorm s /\ max_abs (s_vel s) <= snorm s.
Proof.
  pose proof (comp_snorm s 0). pose proof (comp_snorm s 1). pose proof (comp_snorm s 2). pose proof (comp_snorm s 3). pose proof (comp_snorm s 4). pose proof (comp_snorm s 5). cbn [comp] in *.
  unfold max_abs. split; repeat apply Rmax_lub; assumption.
Qed.
Lemma step_error_bound h ks x : 0 <= h <= 1 -> snorm (accumulate szero CT ks) <= x -> step_error h ks <= 2 * x.
Proof.
  intros Hh Hx. unfold step_error. destruct (max_abs_snorm (accumulate szero CT ks)) as [A B]. assert (0 <= max_abs (s_vel (accumulate szero CT ks))) by (unfold max_abs; eapply Rle_trans; [apply Rabs_pos|apply Rmax_r]).
  set (p := max_abs (s_pos _)) in *. set (v := max_abs (s_vel _)) in *. nra.
Qed.
(** ** C84 One step *)
(** A step over [h] from a point of a true trajectory ends within [C h^6] of the true trajectory, and its error estimate is at most [C h^5]. *)
Theorem C84_local field u T rho M D1 D2 D3 D4 : solves field T u -> smooth_along field u T rho M D1 D2 D3 D4 ->
  exists C h0, 0 <= C /\ 0 < h0 /\ forall t h, 0 <= t -> 0 <= h <= h0 -> t + h <= T ->
    exists ks, rk_stages field h (u t) = Ok ks /\ snorm (ssub (step_state (u t) ks) (u (t + h))) <= C * h ^ 6 /\ step_error h ks <= C * h ^ 5.
Proof.
  intros Su Sm. destruct (local_exists field u T rho M D1 D2 D3 D4 Sm Su) as (C & h0 & HC & Hh & Q). exists (2 * C), h0. split; [lra|]. split; [lra|]. intros t h Ht Hhh HT.
  destruct (Q t h Ht Hhh HT) as (ks & E & A & B). exists ks. split; [exact E|]. assert (P6 : 0 <= C * h ^ 6) by (apply Rmult_le_pos; [lra|apply pow_le; lra]). split; [lra|].
  eapply Rle_trans; [apply (step_error_bound h ks _ ltac:(lra) B)|]. lra.
Qed.
Print Assumptions C84_local.
(** In the field of a three-dimensional geometry the force is smooth along every trajectory that meets no charge. *)
Theorem C84_three_d f u T : b_class f = Field3D_BEM -> 0 <= T -> solves (tracer_field f) T u ->
  (forall t, 0 <= t <= T -> off_charges (b_elec f) (s_pos (u t)) /\ off_charges (b_mag f) (s_pos (u t))) ->
  exists C h0, 0 <= C /\ 0 < h0 /\ forall t h, 0 <= t -> 0 <= h <= h0 -> t + h <= T ->
    exists ks, rk_stages (tracer_field f) h (u t) = Ok ks /\ snorm (ssub (step_state (u t) ks) (u (t + h))) <= C * h ^ 6 /\ step_error h ks <= C * h ^ 5.
Proof. intros HC HT S Off. destruct (bem_smooth f u T HC HT S Off) as (rho & M & D1 & D2 & D3 & D4 & Sm). exact (C84_local _ _ _ _ _ _ _ _ _ S Sm). Qed.
Print Assumptions C84_three_d.

(** ** C85 Whole trajectories *)
(** The states of a trace, up to the time [T], deviate from the true trajectory by no more than the fifth power of the largest step. *)
Theorem C85_global field u T rho M D1 D2 D3 D4 : solves field T u -> smooth_along field u T rho M D1 D2 D3 D4 ->
  exists C H0, 0 <= C /\ 0 < H0 /\ forall fuel inner block bounds atol samples H n t y, 0 < atol -> (2 <= block)%nat ->
    trace_blocks fuel inner block field bounds atol true 0 (u 0) = Ok samples -> nth_error samples n = Some (t, y) -> t <= T ->
    0 <= H <= H0 -> (forall k tk yk tk' yk', (k < n)%nat -> nth_error samples k = Some (tk, yk) -> nth_error samples (S k) = Some (tk', yk') -> tk' - tk <= H) ->
    snorm (ssub y (u t)) <= C * H ^ 5.
Proof.
  intros Su Sm. destruct (global_exists field u T rho M D1 D2 D3 D4 Sm Su) as (C & H0 & HC & HP & Q). exists C, H0. split; [exact HC|]. split; [exact HP|].
  intros fuel inner block bounds atol samples H n t y Ha Hb Tr Hn Ht HH Small. destruct (C37_trajectory _ _ _ _ _ _ _ _ Ha Hb Tr) as (m & Len & First & _ & Step).
  set (d := (0, u 0)). set (ts := fun k => fst (nth k samples d)). set (ys := fun k => snd (nth k samples d)).
  assert (Nth : forall k, (k < length samples)%nat -> nth_error samples k = Some (ts k, ys k)).
  { intros k Hk. unfold ts, ys. rewrite (nth_error_nth' samples d Hk). destruct (nth k samples d). reflexivity. }
  assert (Hlen : (n < length samples)%nat) by (apply nth_error_Some; rewrite Hn; discriminate).
  assert (En : ts n = t /\ ys n = y) by (pose proof (Nth n Hlen) as E; rewrite Hn in E; injection E as -> ->; split; reflexivity). destruct En as [<- <-].
  apply (Q H ts ys n HH).
  - pose proof (Nth 0%nat ltac:(lia)) as E. rewrite First in E. injection E as <- _. reflexivity.
  - pose proof (Nth 0%nat ltac:(lia)) as E. rewrite First in E. injection E as _ <-. reflexivity.
  - intros k Hk. pose proof (Nth k ltac:(lia)) as E1. pose proof (Nth (S k) ltac:(lia)) as E2. destruct (Step k _ _ _ _ E1 E2) as (_ & Lt & _ & ks & Ek & _ & Es).
    split; [split; [lra|apply (Small k _ _ _ _ Hk E1 E2)]|]. exists ks. split; [exact Ek|exact Es].
  - exact Ht.
Qed.
Print Assumptions C85_global.
(** Electrons traced through the field of a three-dimensional geometry. *)
Theorem C85_three_d f u T : b_class f = Field3D_BEM -> 0 <= T -> solves (tracer_field f) T u ->
  (forall t, 0 <= t <= T -> off_charges (b_elec f) (s_pos (u t)) /\ off_charges (b_mag f) (s_pos (u t))) ->
  exists C H0, 0 <= C /\ 0 < H0 /\ forall fuel inner bounds atol x v w samples H n t y, 0 < atol ->
    tracer_call fuel inner f bounds atol x v = Ok samples -> convert_velocity_to_SI v = Ok w -> u 0 = mkstate x w -> nth_error samples n = Some (t, y) -> t <= T ->
    0 <= H <= H0 -> (forall k tk yk tk' yk', (k < n)%nat -> nth_error samples k = Some (tk, yk) -> nth_error samples (S k) = Some (tk', yk') -> tk' - tk <= H) ->
    snorm (ssub y (u t)) <= C * H ^ 5.
Proof.
  intros HC HT S Off. destruct (bem_smooth f u T HC HT S Off) as (rho & M & D1 & D2 & D3 & D4 & Sm). destruct (C85_global _ _ _ _ _ _ _ _ _ S Sm) as (C & H0 & P1 & P2 & Q).
  exists C, H0. split; [exact P1|]. split; [exact P2|]. intros fuel inner bounds atol x v w samples H n t y Ha Tr Hw U0 Hn Ht HH Small.
  unfold tracer_call in Tr. rewrite Hw in Tr. cbn [bind] in Tr. unfold trace_particle_wrapper in Tr. rewrite <- U0 in Tr.
  assert (B : (2 <= TRACING_BLOCK_SIZE)%nat) by (unfold TRACING_BLOCK_SIZE; change 2%nat with (Z.to_nat 2); apply Z2Nat.inj_le; lia).
  exact (Q _ _ _ _ _ _ H n t y Ha B Tr Hn Ht HH Small).
Qed.
Print Assumptions C85_three_d.

(** The hypotheses are met: an electron that circles around a point charge at the distance one. *)
Definition attractor : bem := mkbem Field3D_BEM (mkcharges TRIANGLE_RULE [(- (4 * PI) / EM, [(1, vzero)])]) empty_3d empty_3d None.
Definition orbit (t : R) : state := mkstate (V3 (cos t) (sin t) 0) (V3 (- sin t) (cos t) 0).
Lemma EM_nonzero : EM <> 0. Proof. unfold EM. lra. Qed.
Example C84_nonvacuous T : b_class attractor = Field3D_BEM /\ solves (tracer_field attractor) T orbit /\
  (forall t, 0 <= t <= T -> off_charges (b_elec attractor) (s_pos (orbit t)) /\ off_charges (b_mag attractor) (s_pos (orbit t))).
Proof.
  split; [reflexivity|]. assert (SC : forall t, cos t * cos t + sin t * sin t = 1) by (intros t; pose proof (sin2_cos2 t) as E; unfold Rsqr in E; lra). split.
  - intros t _. exists (mkstate (V3 (- sin t) (cos t) 0) (V3 (- cos t) (- sin t) 0)). split.
    + eexists. split; [reflexivity|]. cbn [s_vel orbit]. f_equal. unfold combine_elec_magnetic_field, field_3d, evaluate, source_sum.
      cbn [attractor b_elec b_mag empty_3d q_items map Rsum fst snd]. unfold dx1_potential_3d_point, dy1_potential_3d_point, dz1_potential_3d_point. cbn [s_pos orbit vzero].
      assert (N : norm (vsub vzero (V3 (cos t) (sin t) 0)) = 1) by (apply norm_unique; [lra|unfold dot; cbn; specialize (SC t); lra]). cbn [vzero] in N. rewrite N.
      pose proof EM_nonzero. pose proof PI_neq0. apply vec_eq; cbn -[EM MU_0 PI]; field; split; assumption.
    + split; (split; [|split]); cbn; try (apply (is_derive_const (V := R_NormedModule))); auto_derive; try exact I; ring.
  - intros t _. split; [|intros x jp []]. intros x jp [<-|[]] [<-|[]]. cbn [snd orbit s_pos]. intros E. injection E as E1 E2. specialize (SC t). rewrite <- E1, <- E2 in SC. lra.
Qed.
Example C85_nonvacuous T : 0 <= T -> exists rho M D1 D2 D3 D4, solves (tracer_field attractor) T orbit /\ smooth_along (tracer_field attractor) orbit T rho M D1 D2 D3 D4.
Proof.
  intros HT. destruct (C84_nonvacuous T) as (A & B & C). destruct (bem_smooth attractor orbit T A HT B C) as (rho & M & D1 & D2 & D3 & D4 & Sm).
  exists rho, M, D1, D2, D3, D4. split; [exact B|exact Sm].
Qed.
