(** C86: traces end. *)
From Coq Require Import Reals Lra Lia Psatz.
From Coquelicot Require Import Coquelicot.
From Verif Require Import Base BaseFacts Vec GeomModel OutwardFacts FieldModel FieldFacts SeriesModel SeriesFacts DispatchModel TracingModel TracingFacts AxialErrorFacts ConvSpec ConvStep BemSmooth ProgressSpec ProgressFacts ProgressLoop InterpFacts AxialBound Props_Tracing.
Local Open Scope R_scope.

(** [n] is a direction of length at most one along which the electron moves with the speed [dot n v]; [L] is the extent of the bounds ahead
    of it; [Fmax] bounds the force near the bounds, for speeds up to twice the initial one.  If the squared speed is at least
    [(8 L + 2) e/m Fmax] then tracing ends (the model does not run out of fuel, for any block size), the electron has left the bounds
    by the time [(4 L + 0.02)/speed], and has never lost more than half of its speed along [n]. *)
Theorem C86_ends field bounds x v n Fmax L atol : 0 < atol -> 0 <= Fmax -> 0 <= L -> norm n <= 1 -> 0 < dot n v ->
  extent bounds n x L -> force_bounded field bounds (0.64 * (norm v / dot n v)) (2 * norm v) Fmax -> (8 * L + 2) * (Rabs EM * Fmax) <= dot n v * dot n v ->
  exists N, forall fuel inner block, (N <= fuel)%nat -> (N <= inner)%nat -> (2 <= block)%nat ->
    exists samples, trace_blocks fuel inner block field bounds atol true 0 (mkstate x v) = Ok samples /\
      Forall (fun s => 0 <= fst s <= (4 * L + 0.02) / dot n v /\ dot n v / 2 <= dot n (s_vel (snd s)) /\ norm (s_vel (snd s)) <= 3 / 2 * norm v) samples.
Proof. intros Ha HF HL Hn Hw Ext FB Small. exact (trace_ends field bounds x v n Fmax L atol HF HL Hn Hw Ha Small Ext FB). Qed.
Print Assumptions C86_ends.

(** bounds on the Lorentz force *)
Lemma cross_le a b : norm (cross a b) <= norm a * norm b.
Proof.
  apply Rsqr_incr_0_var; [|apply Rmult_le_pos; apply norm_nonneg]. unfold Rsqr. rewrite norm_sq. replace (norm a * norm b * (norm a * norm b)) with (norm a * norm a * (norm b * norm b)) by ring. rewrite !norm_sq.
  pose proof (Rle_0_sqr (dot a b)) as Q. unfold Rsqr, dot, cross in *. cbn in *. nra.
Qed.
Lemma lorentz_bound v E H Emax Hmax vmax : norm E <= Emax -> norm H <= Hmax -> norm v <= vmax -> norm (combine_elec_magnetic_field v E H vzero) <= Emax + vmax * (MU_0 * Hmax).
Proof.
  intros HE HH Hv. assert (M : 0 < MU_0) by (unfold MU_0; lra). unfold combine_elec_magnetic_field. eapply Rle_trans; [apply norm_triangle|]. apply Rplus_le_compat; [exact HE|].
  eapply Rle_trans; [apply cross_le|]. apply Rmult_le_compat; try apply norm_nonneg; [exact Hv|]. rewrite norm_scale, Rabs_pos_eq by lra. apply Rmult_le_compat_l; [lra|].
  replace (vadd H vzero) with H by (destruct H; vec_ring). exact HH.
Qed.
(** three-dimensional fields: [r] is a distance from all charges *)
Lemma kernel_bound i p q r : 0 < r <= norm (vsub q p) -> Rabs (kernel i p q) <= / (4 * PI * (r * r)).
Proof.
  intros Hr. unfold kernel. set (d := vsub q p) in *. pose proof PI_RGT_0.
  assert (C : Rabs (coord i q - coord i p) <= norm d).
  { eapply Rle_trans; [|apply max_abs_norm]. unfold max_abs, d, coord, vsub. cbn [vx vy vz]. destruct i as [|[|i]]; [eapply Rle_trans; [apply Rmax_l|apply Rmax_l]|eapply Rle_trans; [apply Rmax_r|apply Rmax_l]|apply Rmax_r]. }
  assert (P : 0 < norm d) by lra. set (x := norm d) in *. clearbody x. unfold Rdiv. rewrite Rabs_mult, (Rabs_pos_eq (/ _)) by (left; apply Rinv_0_lt_compat; apply Rmult_lt_0_compat; [lra|apply pow_lt; exact P]).
  apply Rle_trans with (x * / (4 * PI * x ^ 3)). { apply Rmult_le_compat_r; [|exact C]. left; apply Rinv_0_lt_compat; apply Rmult_lt_0_compat; [lra|apply pow_lt; exact P]. }
  replace (x * / (4 * PI * x ^ 3)) with (/ (4 * PI * (x * x))) by (field; split; lra). apply Rinv_le_contravar; [apply Rmult_lt_0_compat; nra|]. apply Rmult_le_compat_l; [lra|]. nra.
Qed.
Definition total_charge (c : charges) : R := weight (fun _ => 1) c.
Lemma field_3d_bound c p r : 0 < r -> clear_of r c p -> norm (field_3d p c) <= 3 * (total_charge c / (4 * PI * (r * r))).
Proof.
  intros Hr H. assert (Q : forall i, Rabs (evaluate (kernel i p) c) <= total_charge c / (4 * PI * (r * r))).
  { intros i. eapply Rle_trans; [apply (evaluate_abs _ (fun _ => / (4 * PI * (r * r)) * 1)); intros x Hx jp Hj; rewrite Rmult_1_r; apply kernel_bound; split; [exact Hr|apply (H x jp Hx Hj)]|].
    rewrite (weight_scale (/ (4 * PI * (r * r))) (fun _ => 1)). unfold total_charge, Rdiv. lra. }
  eapply Rle_trans; [apply norm_le_sum|]. unfold field_3d. cbn [vx vy vz]. rewrite !Rabs_Ropp. pose proof (Q 0%nat). pose proof (Q 1%nat). pose proof (Q 2%nat). unfold kernel, coord in *.
  unfold dx1_potential_3d_point, dy1_potential_3d_point, dz1_potential_3d_point. lra.
Qed.
(** An electron traced in a three-dimensional field, when the bounds with a margin [m] are at least [r] away from all charges: the force is
    at most [Fmax], in terms of the total charges, and if that is small against the energy the tracer returns. *)
Definition three_d_force (f : bem) (r speed : R) : R :=
  3 * (total_charge (b_elec f) / (4 * PI * (r * r))) + 2 * speed * (MU_0 * (3 * (total_charge (b_mag f) / (4 * PI * (r * r))))).
Theorem C86_three_d f bounds x v w n r L atol : b_class f = Field3D_BEM -> 0 < atol -> 0 <= L -> 0 < r -> norm n <= 1 -> convert_velocity_to_SI v = Ok w -> 0 < dot n w ->
  extent bounds n x L -> (forall p q, within bounds p = true -> norm (vsub q p) <= 0.64 * (norm w / dot n w) -> clear_of r (b_elec f) q /\ clear_of r (b_mag f) q) ->
  (8 * L + 2) * (Rabs EM * three_d_force f r (norm w)) <= dot n w * dot n w ->
  exists N, forall fuel inner, (N <= fuel)%nat -> (N <= inner)%nat -> exists samples, tracer_call fuel inner f bounds atol x v = Ok samples.
Proof.
  intros C Ha HL Hr Hn Hv Hw Ext Clear Small.
  assert (P : 0 <= total_charge (b_elec f) / (4 * PI * (r * r)) /\ 0 <= total_charge (b_mag f) / (4 * PI * (r * r))).
  { pose proof PI_RGT_0. assert (0 < 4 * PI * (r * r)) by (apply Rmult_lt_0_compat; nra). split; apply Rmult_le_pos; try (left; apply Rinv_0_lt_compat; assumption); apply weight_nonneg; intros; lra. }
  assert (M : 0 < MU_0) by (unfold MU_0; lra). pose proof (norm_nonneg w) as Nw.
  destruct (C86_ends (tracer_field f) bounds x w n (three_d_force f r (norm w)) L atol Ha) as (N & HN); try assumption.
  - unfold three_d_force. apply Rplus_le_le_0_compat; [lra|]. apply Rmult_le_pos; [lra|]. apply Rmult_le_pos; lra.
  - intros p s W Hm Hs. destruct (Clear p (s_pos s) W Hm) as [Ce Cm]. unfold tracer_field. rewrite C. unfold field_3d_traceable. eexists. split; [reflexivity|].
    unfold three_d_force. apply lorentz_bound; [apply field_3d_bound; assumption|apply field_3d_bound; assumption|exact Hs].
  - exists N. intros fuel inner Hf Hi. unfold tracer_call. rewrite Hv. cbn [bind]. unfold trace_particle_wrapper.
    destruct (HN fuel inner TRACING_BLOCK_SIZE Hf Hi) as (samples & E & _); [unfold TRACING_BLOCK_SIZE; change 2%nat with (Z.to_nat 2); apply Z2Nat.inj_le; lia|]. exists samples. exact E.
Qed.
Print Assumptions C86_three_d.
(** Axial fields: the bounds with a margin [m] do not contain the last tabulated z (where a row after the end of the table is read, C44). *)
Theorem C86_axial a z0 h N bounds m : a_z a = samples z0 h N -> 0 < h -> (2 <= N)%nat -> length (a_elec a) = (N - 1)%nat -> length (a_mag a) = (N - 1)%nat ->
  (forall p q, within bounds p = true -> norm (vsub q p) <= m -> vz q <> z0 + INR (N - 1) * h) ->
  exists Emax Hmax, 0 <= Emax /\ 0 <= Hmax /\ forall x v w n L atol, 0 < atol -> 0 <= L -> norm n <= 1 -> convert_velocity_to_SI v = Ok w -> 0 < dot n w -> 0.64 * (norm w / dot n w) <= m ->
    extent bounds n x L -> (8 * L + 2) * (Rabs EM * (Emax + 2 * norm w * (MU_0 * Hmax))) <= dot n w * dot n w ->
    exists K, forall fuel inner, (K <= fuel)%nat -> (K <= inner)%nat -> exists samples, axial_tracer_call fuel inner a bounds atol x v = Ok samples.
Proof.
  intros Ez Hh HN Le Lm Out. set (X := 1 + Rabs m + (Rabs (vx (b_lo bounds)) + Rabs (vx (b_hi bounds)) + (Rabs (vy (b_lo bounds)) + Rabs (vy (b_hi bounds))))).
  assert (XP : 1 <= X). { unfold X. pose proof (Rabs_pos m). pose proof (Rabs_pos (vx (b_lo bounds))). pose proof (Rabs_pos (vx (b_hi bounds))). pose proof (Rabs_pos (vy (b_lo bounds))). pose proof (Rabs_pos (vy (b_hi bounds))). lra. }
  assert (NN : forall c, 0 <= 100 * (abstable c * (1 + h) ^ 5 * X ^ 7)). { intros c. pose proof (abstable_pos c). apply Rmult_le_pos; [lra|]. apply Rmult_le_pos; [apply Rmult_le_pos; [lra|]|]; apply pow_le; lra. }
  exists (100 * (abstable (a_elec a) * (1 + h) ^ 5 * X ^ 7)), (100 * (abstable (a_mag a) * (1 + h) ^ 5 * X ^ 7)). split; [apply NN|]. split; [apply NN|].
  intros x v w n L atol Ha HL Hn Hv Hw Hm Ext Small. assert (M : 0 < MU_0) by (unfold MU_0; lra). pose proof (norm_nonneg w) as Nw.
  destruct (C86_ends (field_radial_derivs_traceable a) bounds x w n _ L atol Ha (Rplus_le_le_0_compat _ _ (NN (a_elec a)) (Rmult_le_pos (2 * norm w) _ ltac:(lra) (Rmult_le_pos _ _ (Rlt_le _ _ M) (NN (a_mag a))))) HL Hn Hw Ext) as (K & HK).
  - intros p s W Hs Hvel. assert (Hs' : norm (vsub (s_pos s) p) <= m) by lra. specialize (Out p (s_pos s) W Hs').
    assert (Bx : Rabs (vx (s_pos s)) <= X /\ Rabs (vy (s_pos s)) <= X).
    { destruct (within_range _ _ W) as (Wx & Wy & _). pose proof (max_abs_norm (vsub (s_pos s) p)) as Q. pose proof (Rle_abs m).
      assert (Q1 : Rabs (vx (s_pos s) - vx p) <= m) by (eapply Rle_trans; [|eapply Rle_trans; [exact Q|exact Hs']]; unfold max_abs; cbn [vx vy vz vsub]; eapply Rle_trans; [apply Rmax_l|apply Rmax_l]).
      assert (Q2 : Rabs (vy (s_pos s) - vy p) <= m) by (eapply Rle_trans; [|eapply Rle_trans; [exact Q|exact Hs']]; unfold max_abs; cbn [vx vy vz vsub]; eapply Rle_trans; [apply Rmax_r|apply Rmax_l]).
      apply Rabs_le_between in Q1, Q2. pose proof (Rle_abs (vx (b_hi bounds))). pose proof (Rle_abs (vy (b_hi bounds))). pose proof (Rle_abs (- vx (b_lo bounds))) as Q3. pose proof (Rle_abs (- vy (b_lo bounds))) as Q4. rewrite Rabs_Ropp in Q3, Q4.
      pose proof (Rabs_pos (vx (b_lo bounds))). pose proof (Rabs_pos (vx (b_hi bounds))). pose proof (Rabs_pos (vy (b_lo bounds))). pose proof (Rabs_pos (vy (b_hi bounds))).
      split; apply Rabs_le_between; unfold X; lra. }
    destruct (derivs_bound z0 h N (a_elec a) (s_pos s) X Hh HN Le Out XP (proj1 Bx) (proj2 Bx)) as (E & EE & BE). destruct (derivs_bound z0 h N (a_mag a) (s_pos s) X Hh HN Lm Out XP (proj1 Bx) (proj2 Bx)) as (H & EH & BH).
    unfold field_radial_derivs_traceable, axial_field. rewrite Ez, EE. cbn [bind]. rewrite EH. cbn [bind]. eexists. split; [reflexivity|]. apply lorentz_bound; assumption.
  - exact Small.
  - exists K. intros fuel inner Hf Hi. unfold axial_tracer_call. rewrite Hv. cbn [bind]. unfold trace_particle_wrapper.
    destruct (HK fuel inner TRACING_BLOCK_SIZE Hf Hi) as (samples' & E & _); [unfold TRACING_BLOCK_SIZE; change 2%nat with (Z.to_nat 2); apply Z2Nat.inj_le; lia|]. exists samples'. exact E.
Qed.
Print Assumptions C86_axial.
(** The hypotheses are met: an electron of 200 eV in a uniform field across a box of length two. *)
Definition unit_box : box := mkbox (V3 (-1) (-1) (-1)) (V3 1 1 1).
Example C86_nonvacuous : let v := V3 0 0 (20 * sqrt (Rabs EM)) in
  0 < dot (V3 0 0 1) v /\ norm (V3 0 0 1) <= 1 /\ extent unit_box (V3 0 0 1) (V3 0 0 (-1)) 2 /\
  force_bounded (uniform (V3 1 0 3)) unit_box (0.64 * (norm v / dot (V3 0 0 1) v)) (2 * norm v) 4 /\ (8 * 2 + 2) * (Rabs EM * 4) <= dot (V3 0 0 1) v * dot (V3 0 0 1) v.
Proof.
  intros v. assert (P : 0 < Rabs EM) by (apply Rabs_pos_lt; unfold EM; lra). pose proof (sqrt_lt_R0 _ P) as S. assert (D : dot (V3 0 0 1) v = 20 * sqrt (Rabs EM)) by (unfold dot, v; cbn [vx vy vz]; ring).
  rewrite D. split; [lra|]. split; [right; apply norm_unique; [lra|unfold dot; cbn; ring]|]. split; [|split].
  - intros p W. destruct (within_range _ _ W) as (_ & _ & Wz). cbn in Wz. unfold dot. cbn. lra.
  - intros p s _ _ _. exists (V3 1 0 3). split; [reflexivity|]. eapply Rle_trans; [apply norm_le_sum|]. cbn. rewrite Rabs_R1, Rabs_R0, Rabs_pos_eq by lra. lra.
  - replace (20 * sqrt (Rabs EM) * (20 * sqrt (Rabs EM))) with (400 * (sqrt (Rabs EM) * sqrt (Rabs EM))) by ring. rewrite sqrt_sqrt by lra. lra.
Qed.
