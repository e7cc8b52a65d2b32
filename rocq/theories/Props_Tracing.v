(** Property theorems about tracing and focus: C35-C39, C46, C49. *)
From Coq Require Import Reals Lra Lia.
From Verif Require Import Base BaseFacts Vec GeomModel OutwardFacts FieldModel SeriesModel DispatchModel TracingModel TracingFacts TracingMore OrderSpec OrderFacts FocusModel FocusFacts.
Local Open Scope R_scope.

(** ** C35 Lorentz force *)
(** The force (per unit of charge) felt at [s] is E + v x B with B = mu_0 H, for every field without bounds. *)
Definition lorentz (s : state) (E H F : vec3) : Prop :=
  F = vadd E (cross (s_vel s) (vscale MU_0 H)) /\ dot (s_vel s) (vsub F E) = 0 /\ (s_vel s = vzero -> F = E).
Lemma lorentz_combine s E M C : lorentz s E (vadd M C) (combine_elec_magnetic_field (s_vel s) E M C).
Proof.
  unfold lorentz, combine_elec_magnetic_field. split; [reflexivity|]. split.
  - unfold dot, vsub, vadd, cross, vscale. cbn [vx vy vz]. ring.
  - intros ->. destruct E. vec_ring.
Qed.
Theorem C35_lorentz f s : b_bounds f = None -> exists F, tracer_field f s = Ok F /\ lorentz s (electrostatic_field_at_point f (s_pos s)) (magnetostatic_field_at_point f (s_pos s)) F.
Proof.
  intros B. unfold tracer_field, electrostatic_field_at_point, magnetostatic_field_at_point. destruct (b_class f).
  - unfold field_radial_traceable. rewrite B. eexists. split; [reflexivity|]. replace (vadd (current_field (s_pos s) (b_cur f)) (field_radial (s_pos s) (b_mag f)))
      with (vadd (field_radial (s_pos s) (b_mag f)) (current_field (s_pos s) (b_cur f))) by vec_ring. apply lorentz_combine.
  - unfold field_3d_traceable. eexists. split; [reflexivity|]. replace (field_3d (s_pos s) (b_mag f)) with (vadd (field_3d (s_pos s) (b_mag f)) vzero) at 1 by (destruct (field_3d (s_pos s) (b_mag f)); vec_ring). apply lorentz_combine.
Qed.
Print Assumptions C35_lorentz.
Theorem C35_lorentz_axial a s E H : axial_field true a (s_pos s) = Ok E -> axial_field false a (s_pos s) = Ok H -> exists F, field_radial_derivs_traceable a s = Ok F /\ lorentz s E H F.
Proof.
  intros H1 H2. unfold field_radial_derivs_traceable. rewrite H1, H2. cbn [bind]. eexists. split; [reflexivity|].
  replace H with (vadd H vzero) at 1 by (destruct H; vec_ring). apply lorentz_combine.
Qed.
Print Assumptions C35_lorentz_axial.
(** A stage of the step: velocity times h, and charge over mass times force times h. *)
Theorem C35_acceleration field h s F : field s = Ok F -> produce_new_k field h s = Ok (mkstate (vscale h (s_vel s)) (vscale h (vscale EM F))).
Proof. intros H. unfold produce_new_k. rewrite H. cbn [bind]. f_equal. state_ring. Qed.
Print Assumptions C35_acceleration.
(** The force is linear in the fields, and its magnetic part in the velocity. *)
Theorem C35_linear k v v' E M C E' M' C' :
  combine_elec_magnetic_field v (vadd (vscale k E) E') (vadd (vscale k M) M') (vadd (vscale k C) C') =
    vadd (vscale k (combine_elec_magnetic_field v E M C)) (combine_elec_magnetic_field v E' M' C') /\
  vsub (combine_elec_magnetic_field (vadd (vscale k v) v') E M C) E = vadd (vscale k (vsub (combine_elec_magnetic_field v E M C) E)) (vsub (combine_elec_magnetic_field v' E M C) E).
Proof. unfold combine_elec_magnetic_field. split; apply vec_eq; cbn -[MU_0]; ring. Qed.
Print Assumptions C35_linear.
Example C35_nonvacuous : b_bounds (radial_bem empty_2d empty_2d empty_3d) = None /\ combine_elec_magnetic_field (V3 1 0 0) vzero (V3 0 (/ MU_0) 0) vzero = V3 0 0 1.
Proof. split; [reflexivity|]. assert (N : MU_0 <> 0) by (unfold MU_0; lra). unfold combine_elec_magnetic_field. apply vec_eq; cbn -[MU_0]; field; exact N. Qed.

(** ** C36 Runge-Kutta-Fehlberg step *)
(** One step is a Runge-Kutta step: with f(y) = (velocity, charge/mass * force) there are stages
    Y_i = y + h sum_j a_ij f(Y_j), the new state is y + h sum_i b_i f(Y_i) and the estimated error is h sum_i c_i f(Y_i). *)
Definition rhs (field : field_fun) (s f : state) : Prop := exists F, field s = Ok F /\ f = mkstate (s_vel s) (vscale EM F).
Definition combination (c : list R) (fs : list state) : state := fold_right (fun cf acc => sadd (sscale (fst cf) (snd cf)) acc) szero (combine c fs).
Lemma accumulate_combination h : forall c fs y, accumulate y c (map (sscale h) fs) = sadd y (sscale h (combination c fs)).
Proof.
  induction c as [|c0 c IH]; intros [|f fs] y; try (unfold accumulate, combination; cbn; destruct y as [[] []]; state_ring).
  unfold accumulate, combination in *. cbn [combine map fold_left fold_right fst snd]. rewrite IH. state_ring.
Qed.
Lemma stages_rk field h y : forall bs fs ks, stages field h y bs (map (sscale h) fs) = Ok ks ->
  exists Ys gs, length Ys = length bs /\ length gs = length bs /\ ks = map (sscale h) (fs ++ gs) /\
    forall i Y b, nth_error Ys i = Some Y -> nth_error bs i = Some b ->
      Y = sadd y (sscale h (combination b (firstn (length fs + i) (fs ++ gs)))) /\ exists g, nth_error gs i = Some g /\ rhs field Y g.
Proof.
  induction bs as [|b bs IH]; intros fs ks H.
  - injection H as <-. exists [], []. rewrite app_nil_r. repeat split; destruct i; discriminate.
  - cbn [stages] in H. apply bind_ok in H. destruct H as (k & Hk & H). unfold produce_new_k in Hk. apply bind_ok in Hk. destruct Hk as (F & HF & Hk). injection Hk as <-.
    rewrite accumulate_combination in *. set (Y0 := sadd y (sscale h (combination b fs))) in *. set (g0 := mkstate (s_vel Y0) (vscale EM F)).
    replace (map (sscale h) fs ++ [mkstate (vscale h (s_vel Y0)) (vscale (h * EM) F)]) with (map (sscale h) (fs ++ [g0])) in H.
    + destruct (IH _ _ H) as (Ys & gs & L1 & L2 & E & Q). exists (Y0 :: Ys), (g0 :: gs). split; [cbn; lia|]. split; [cbn; lia|]. split; [rewrite E, <- app_assoc; reflexivity|].
      intros [|i] Y b' HY Hb; cbn in HY, Hb.
      * injection HY as <-. injection Hb as <-. rewrite Nat.add_0_r, firstn_app, Nat.sub_diag, firstn_all. cbn [firstn]. rewrite app_nil_r. split; [reflexivity|]. exists g0. split; [reflexivity|]. exists F. auto.
      * destruct (Q i Y b' HY Hb) as (QY & g & Hg & R0). rewrite <- app_assoc in QY. cbn [app] in QY. rewrite app_length in QY. cbn [length] in QY.
        replace (length fs + 1 + i)%nat with (length fs + S i)%nat in QY by lia. split; [exact QY|]. exists g. auto.
    + rewrite map_app. cbn [map]. f_equal. f_equal. unfold g0. state_ring.
Qed.
Theorem C36_runge_kutta field h y ks : rk_stages field h y = Ok ks ->
  exists Ys fs, length Ys = 6%nat /\ length fs = 6%nat /\
    (forall i Y a, nth_error Ys i = Some Y -> nth_error tableau i = Some a -> Y = sadd y (sscale h (combination a (firstn i fs))) /\ exists f, nth_error fs i = Some f /\ rhs field Y f) /\
    step_state y ks = sadd y (sscale h (combination CH fs)) /\
    step_error h ks = max_abs (s_pos (sscale h (combination CT fs))) + h * max_abs (s_vel (sscale h (combination CT fs))).
Proof.
  intros H. destruct (stages_rk field h y _ [] _ H) as (Ys & gs & L1 & L2 & E & Q). exists Ys, gs. split; [exact L1|]. split; [exact L2|]. split; [exact Q|]. subst ks. cbn [app] in *.
  unfold step_state, step_error. rewrite !accumulate_combination. split; [reflexivity|]. rewrite sadd_zero_l. reflexivity.
Qed.
Print Assumptions C36_runge_kutta.
(** The coefficients satisfy the order conditions: order five, the embedded method order four, and the row sums. *)
Theorem C36_order : has_order 5 tableau CH /\ has_order 4 tableau (map (fun c => fst c - snd c) (combine CH CT)) /\ map (fun row => fold_right Rplus 0 row) tableau = A_coeff.
Proof.
  split; [exact fifth_order|]. split; [exact fourth_order|]. unfold tableau, B2, B3, B4, B5, B6, A_coeff. cbn [map fold_right]. repeat (apply list_cons_eq; [field|]). reflexivity.
Qed.
Print Assumptions C36_order.
(** In every affine force field (for instance a quadratic potential with a uniform magnetic field) a step is the Taylor polynomial of order
    five of the exact solution plus one term of order six, and the error estimate is of order five. *)
Definition affine (field : field_fun) (L : state -> state) : Prop :=
  linear_map L /\ forall y d, exists F F', field y = Ok F /\ field (sadd y d) = Ok F' /\
    mkstate (s_vel (sadd y d)) (vscale EM F') = sadd (mkstate (s_vel y) (vscale EM F)) (L d).
Theorem C36_affine field L h y g : affine field L -> rhs field y g ->
  exists ks, rk_stages field h y = Ok ks /\
    step_state y ks = sadd y (sadd (sscale h g) (sadd (sscale (h ^ 2 / 2) (L g)) (sadd (sscale (h ^ 3 / 6) (L (L g))) (sadd (sscale (h ^ 4 / 24) (L (L (L g))))
      (sadd (sscale (h ^ 5 / 120) (L (L (L (L g))))) (sscale (h ^ 6 / 960) (L (L (L (L (L g))))))))))) /\
    accumulate szero CT ks = sadd (sscale (- h ^ 5 / 480) (L (L (L (L g))))) (sscale (h ^ 6 / 960) (L (L (L (L (L g)))))).
Proof.
  intros [HL HA] (F & HF & ->). set (g := mkstate (s_vel y) (vscale EM F)).
  assert (Hg : forall d, exists f, field (sadd y d) = Ok f /\ mkstate (s_vel (sadd y d)) (vscale EM f) = sadd g (L d)).
  { intros d. destruct (HA y d) as (F0 & F' & H1 & H2 & H3). rewrite HF in H1. injection H1 as <-. exists F'. auto. }
  exists (map (poly_in L g) (stage_polys h)). split; [exact (rk_stages_poly L HL g field y Hg h)|].
  assert (Z : L szero = szero) by exact (lin_zero L HL).
  unfold step_state. rewrite !(accumulate_poly0 L HL), CH_polys, CT_polys, sadd_zero_l. cbn [poly_in]. rewrite Z. rewrite !sadd_zero_r, !sscale_zero, !sadd_zero_l.
  repeat (rewrite ?(lin_add L HL), ?(lin_scale L HL)). auto.
Qed.
Print Assumptions C36_affine.
(** In a uniform force field all samples lie on the exact parabola, whatever the step sizes and the number of blocks. *)
Theorem C36_uniform fuel inner block F bounds atol y0 samples : 0 < atol -> (2 <= block)%nat ->
  trace_blocks fuel inner block (uniform F) bounds atol true 0 y0 = Ok samples ->
  forall k t s, nth_error samples k = Some (t, s) ->
    s_pos s = vadd (vadd (s_pos y0) (vscale t (s_vel y0))) (vscale (t ^ 2 / 2) (vscale EM F)) /\ s_vel s = vadd (s_vel y0) (vscale t (vscale EM F)).
Proof.
  intros Ha Hb H k t s Hk. destruct (trace_blocks_spec _ _ _ _ _ Ha Hb _ _ _ _ _ H) as (l & -> & Hd & L & _).
  pose proof (linked_uniform F bounds atol _ l 0 y0 L Hd k (t, s) Hk) as E. cbn [fst snd] in E. rewrite Rminus_0_r in E. rewrite E. split; reflexivity.
Qed.
Print Assumptions C36_uniform.
(** A free particle is traced to the end in steps of TRACING_STEP_MAX, for every block size. *)
Theorem C36_free block bounds atol x v : 0 <= atol -> (2 <= block)%nat -> v <> vzero ->
  exists n, within bounds (vadd x (vscale (INR n * (TRACING_STEP_MAX / norm v)) v)) = false /\
    (forall k, (k < n)%nat -> within bounds (vadd x (vscale (INR k * (TRACING_STEP_MAX / norm v)) v)) = true) /\
    forall fuel inner, (n < fuel)%nat -> (n < inner)%nat ->
      trace_blocks fuel inner block (uniform vzero) bounds atol true 0 (mkstate x v) =
      Ok (map (fun k => (INR k * (TRACING_STEP_MAX / norm v), mkstate (vadd x (vscale (INR k * (TRACING_STEP_MAX / norm v)) v)) v)) (seq 0 (S n))).
Proof.
  intros Ha Hb Hv. set (D := TRACING_STEP_MAX / norm v). set (y := mkstate x v).
  assert (N : norm (s_vel y) <> 0) by (intros E; apply Hv; apply norm_zero; exact E).
  assert (HD : 0 < D). { apply Rdiv_lt_0_compat; [unfold TRACING_STEP_MAX; lra|]. apply norm_pos; exact N. }
  destruct (leaves_box bounds y 0 D HD N) as [n0 Hn0]. destruct (first_false (fun k => within bounds (s_pos (snd (coast y 0 D k)))) n0 Hn0) as (n & H1 & H2).
  exists n. split; [exact H1|]. split; [exact H2|]. intros fuel inner Hf Hi.
  pose proof (coast_blocks block bounds atol inner Ha Hb fuel n true 0 y Hi Hf N H2 H1) as E. unfold zero_field in E. fold y. etransitivity; [exact E|]. f_equal. apply map_ext. intros k. unfold coast. f_equal. cbn [s_vel y]. fold D. ring.
Qed.
Print Assumptions C36_free.
Example C36_nonvacuous : affine (uniform (V3 1 2 3)) drift /\ affine (fun s => Ok (s_pos s)) (fun d => mkstate (s_vel d) (vscale EM (s_pos d))).
Proof.
  split; (split; [split; intros; state_ring|]); intros y d; do 2 eexists; (split; [reflexivity|]); (split; [reflexivity|]); unfold drift; apply state_eq; apply vec_eq; cbn -[EM]; ring.
Qed.

(** ** C37 Traced trajectories *)
(** For every force, bounds, positive tolerance and block size of at least two: the first sample is the initial state at time zero; every
    sample except the last lies inside the bounds and the last lies outside; from each sample to the next the time increases, by no more
    than the maximal step of its block, and the state is advanced by one accepted step over exactly that time. *)
Theorem C37_trajectory fuel inner block field bounds atol y0 samples : 0 < atol -> (2 <= block)%nat ->
  trace_blocks fuel inner block field bounds atol true 0 y0 = Ok samples ->
  exists n, length samples = S n /\ nth_error samples 0 = Some (0, y0) /\
    (forall t y, nth_error samples n = Some (t, y) -> within bounds (s_pos y) = false) /\
    forall k t y t' y', nth_error samples k = Some (t, y) -> nth_error samples (S k) = Some (t', y') ->
      within bounds (s_pos y) = true /\ t < t' /\
      (exists j tj yj, (j <= k < j + (block - 1))%nat /\ (exists i, j = i * (block - 1))%nat /\ nth_error samples j = Some (tj, yj) /\ t' - t <= TRACING_STEP_MAX / norm (s_vel yj)) /\
      exists ks, rk_stages field (t' - t) y = Ok ks /\ step_error (t' - t) ks <= atol /\ y' = step_state y ks.
Proof.
  intros Ha Hb H. destruct (trace_blocks_spec _ _ _ _ _ Ha Hb _ _ _ _ _ H) as (l & -> & Hd & L & Out). destruct l as [|s0 l]; [discriminate|]. cbn [hd_error] in Hd. injection Hd as ->.
  exists (length l). split; [reflexivity|]. split; [reflexivity|]. split.
  - intros t y Hy. assert (E : last ((0, y0) :: l) (0, y0) = (t, y)). { apply last_nth. apply np_get_ok. cbn [length Nat.sub]. rewrite Nat.sub_0_r. exact Hy. }
    rewrite E in Out. exact Out.
  - intros k t y t' y' H1 H2. destruct (L k _ _ H1 H2) as (W & T & S1 & O). cbn [fst snd] in *. split; [exact W|]. split; [exact T|]. split; [|exact O].
    assert (J : (block_start block k <= k < block_start block k + (block - 1))%nat).
    { unfold block_start. pose proof (Nat.div_mod k (block - 1) ltac:(lia)) as Dm. pose proof (Nat.mod_upper_bound k (block - 1) ltac:(lia)). lia. }
    unfold hmax_at in S1. destruct (nth_error ((0, y0) :: l) (block_start block k)) as [[tj yj]|] eqn:E.
    + exists (block_start block k), tj, yj. split; [exact J|]. split; [exists (k / (block - 1))%nat; reflexivity|]. split; [exact E|exact S1].
    + apply nth_error_None in E. assert (k < length ((0%R, y0) :: l))%nat by (apply nth_error_Some; rewrite H1; discriminate). lia.
Qed.
Print Assumptions C37_trajectory.
Theorem C37_tracer fuel inner f bounds atol x v samples : 0 < atol -> tracer_call fuel inner f bounds atol x v = Ok samples ->
  exists w, convert_velocity_to_SI v = Ok w /\ nth_error samples 0 = Some (0, mkstate x w) /\ (1 <= length samples)%nat /\
    forall k t y t' y', nth_error samples k = Some (t, y) -> nth_error samples (S k) = Some (t', y') ->
      within bounds (s_pos y) = true /\ t < t' /\ exists ks, rk_stages (tracer_field f) (t' - t) y = Ok ks /\ step_error (t' - t) ks <= atol /\ y' = step_state y ks.
Proof.
  intros Ha H. unfold tracer_call in H. apply bind_ok in H. destruct H as (w & Hw & H). exists w. split; [exact Hw|]. unfold trace_particle_wrapper in H.
  assert (B : (2 <= TRACING_BLOCK_SIZE)%nat) by (unfold TRACING_BLOCK_SIZE; change 2%nat with (Z.to_nat 2); apply Z2Nat.inj_le; lia).
  destruct (C37_trajectory _ _ _ _ _ _ _ _ Ha B H) as (n & Hn & H0 & _ & Q). split; [exact H0|]. split; [lia|]. intros k t y t' y' H1 H2.
  destruct (Q k t y t' y' H1 H2) as (W & T & _ & O). auto.
Qed.
Print Assumptions C37_tracer.
(** The hypotheses are met: a free particle in a box. *)
Example C37_nonvacuous : exists fuel inner samples, trace_blocks fuel inner 3 (uniform vzero) (mkbox (V3 (-1) (-1) (-1)) (V3 1 1 1)) 1 true 0 (mkstate vzero (V3 0 0 5)) = Ok samples /\ (2 <= length samples)%nat.
Proof.
  assert (Nz : V3 0 0 5 <> vzero) by (intros E; injection E; lra).
  destruct (C36_free 3 (mkbox (V3 (-1) (-1) (-1)) (V3 1 1 1)) 1 vzero (V3 0 0 5) ltac:(lra) ltac:(lia) Nz) as (n & Out & _ & Tr).
  exists (S n), (S n). eexists. split; [apply Tr; lia|]. rewrite map_length, seq_length. destruct n; [|lia].
  exfalso. revert Out. unfold within, vadd, vscale, vzero. cbn [vx vy vz b_lo b_hi INR]. rewrite !Rmult_0_l, !Rplus_0_r.
  unfold leb. repeat (destruct (Rle_dec _ _); [|lra]). discriminate.
Qed.

(** ** C38 Plane intersection *)
Theorem C38_intersection positions p0 normal r : plane_intersection positions p0 normal = Ok r ->
  exists i a b, nth_error positions i = Some a /\ nth_error positions (S i) = Some b /\ opposite_sides p0 normal a b /\
    on_segment a b r /\ dot normal (vsub (s_pos r) p0) = 0 /\
    forall j x y, (i < j)%nat -> nth_error positions j = Some x -> nth_error positions (S j) = Some y -> ~ opposite_sides p0 normal x y.
Proof.
  intros H. assert (L : (2 <= length positions)%nat).
  { unfold plane_intersection in H. destruct (rev positions) as [|x [|y l]] eqn:E; try discriminate. rewrite <- (rev_length positions), E. cbn. lia. }
  pose proof (plane_spec positions p0 normal L) as P. rewrite H in P. exact P.
Qed.
Print Assumptions C38_intersection.
Theorem C38_found positions p0 normal : (2 <= length positions)%nat ->
  ((exists r, plane_intersection positions p0 normal = Ok r) <-> exists i a b, nth_error positions i = Some a /\ nth_error positions (S i) = Some b /\ opposite_sides p0 normal a b) /\
  ((exists r, plane_intersection positions p0 normal = Ok r) \/ plane_intersection positions p0 normal = Err ValueError).
Proof.
  intros L. pose proof (plane_spec positions p0 normal L) as P. destruct (plane_intersection positions p0 normal) as [r|e].
  - destruct P as (i & a & b & H1 & H2 & H3 & _). split; [|left; eexists; reflexivity]. split; [intros _; exists i, a, b; auto|intros _; eexists; reflexivity].
  - destruct P as (-> & P). split; [|right; reflexivity]. split; [intros (r & H); discriminate|intros (i & a & b & H1 & H2 & H3)]. exfalso. exact (P i a b H1 H2 H3).
Qed.
Print Assumptions C38_found.
(** The helper functions use the planes they name. *)
Theorem C38_planes positions c r :
  (xy_plane_intersection positions c = Ok r -> vz (s_pos r) = c) /\ (xz_plane_intersection positions c = Ok r -> vy (s_pos r) = c) /\ (yz_plane_intersection positions c = Ok r -> vx (s_pos r) = c) /\
  (forall z, axis_intersection positions = Ok z -> exists s, vx (s_pos s) = 0 /\ vz (s_pos s) = z /\ exists i a b, nth_error positions i = Some a /\ nth_error positions (S i) = Some b /\ on_segment a b s).
Proof.
  assert (G : forall p n s, plane_intersection positions p n = Ok s -> dot n (vsub (s_pos s) p) = 0) by (intros p n s H; destruct (C38_intersection _ _ _ _ H) as (i & a & b & _ & _ & _ & _ & Z & _); exact Z).
  split; [|split; [|split]].
  - intros H. apply G in H. unfold dot, vsub in H. cbn in H. lra.
  - intros H. apply G in H. unfold dot, vsub in H. cbn in H. lra.
  - intros H. apply G in H. unfold dot, vsub in H. cbn in H. lra.
  - intros z H. unfold axis_intersection in H. apply bind_ok in H. destruct H as (s & Hs & H). injection H as <-. exists s. split; [pose proof (G _ _ _ Hs) as Z; unfold dot, vsub in Z; cbn in Z; lra|]. split; [reflexivity|].
    destruct (C38_intersection _ _ _ _ Hs) as (i & a & b & H1 & H2 & _ & H3 & _). exists i, a, b. auto.
Qed.
Print Assumptions C38_planes.
Example C38_nonvacuous : opposite_sides (V3 0 0 1) (V3 0 0 1) (mkstate (V3 0 0 0) (V3 1 0 0)) (mkstate (V3 0 0 3) (V3 1 0 0)).
Proof. unfold opposite_sides, height, dot, vsub. cbn. lra. Qed.

(** ** C39 Initial velocity and energy *)
Theorem C39_direction eV d v : velocity_vec eV d = Ok v -> norm v = eV /\ exists k, 0 < k /\ v = vscale k d.
Proof. intros H. apply velocity_vec_ok in H. tauto. Qed.
Print Assumptions C39_direction.
Theorem C39_defined eV d : 0 < eV -> d <> vzero -> exists v, velocity_vec eV d = Ok v.
Proof.
  intros H N. unfold velocity_vec, py_assert. rewrite (proj2 (ltb_true 0 eV) H). cbn [bind]. destruct (Req_EM_T (norm d) 0) as [E|]; [|eexists; reflexivity]. apply norm_zero in E. contradiction.
Qed.
Print Assumptions C39_defined.
Theorem C39_length_irrelevant eV d k : 0 < k -> velocity_vec eV (vscale k d) = velocity_vec eV d.
Proof.
  intros K. unfold velocity_vec. destruct (py_assert (ltb 0 eV)); [|reflexivity]. cbn [bind]. rewrite norm_scale, (Rabs_pos_eq k) by lra.
  destruct (Req_EM_T (norm d) 0) as [E|N].
  - rewrite E. destruct (Req_EM_T (k * 0) 0); [reflexivity|lra].
  - destruct (Req_EM_T (k * norm d) 0) as [E|]; [exfalso; apply Rmult_integral in E; lra|]. f_equal. apply vec_eq; cbn; field; split; lra.
Qed.
Print Assumptions C39_length_irrelevant.
(** kinetic energy m v^2 / 2 = e * eV *)
Theorem C39_energy eV d v w : velocity_vec eV d = Ok v -> convert_velocity_to_SI v = Ok w -> m_e * norm w ^ 2 / 2 = e_charge * eV /\ exists k, 0 < k /\ w = vscale k d.
Proof.
  intros H1 H2. apply velocity_vec_ok in H1. destruct H1 as (P & N & E & k & Hk & ->). apply velocity_SI in H2. destruct H2 as (_ & En & k' & Hk' & ->). rewrite E in En.
  split; [exact En|]. exists (k' * k). split; [apply Rmult_lt_0_compat; assumption|]. vec_ring.
Qed.
Print Assumptions C39_energy.
(** The charge over mass used for the acceleration belongs to the same constants, to the last digit of a double. *)
Theorem C39_constants_agree : Rabs (EM - - (e_charge / m_e)) <= 1e-15 * (e_charge / m_e).
Proof.
  assert (H : e_charge / m_e * m_e = e_charge) by (field; unfold m_e; lra). set (x := e_charge / m_e) in *. clearbody x. unfold e_charge, m_e in H.
  assert (B : 175882001077.21634 <= x <= 175882001077.21635) by lra. unfold EM. apply Rabs_le. lra.
Qed.
Print Assumptions C39_constants_agree.
(** The directions given by angles. *)
Theorem C39_angles eV : 0 < eV -> forall a b,
  velocity_vec_spherical eV a b = Ok (vscale eV (V3 (sin a * cos b) (sin a * sin b) (cos a))) /\
  (forall down, velocity_vec_xz_plane eV a down = Ok (vscale eV (V3 (sin a) 0 (if down : bool then - cos a else cos a)))).
Proof.
  intros P a b. assert (G : forall d, dot d d = 1 -> velocity_vec eV d = Ok (vscale eV d)).
  { intros d D. assert (N : norm d = 1) by (apply norm_unique; lra). unfold velocity_vec, py_assert. rewrite (proj2 (ltb_true 0 eV) P). cbn [bind]. rewrite N. destruct (Req_EM_T 1 0); [lra|]. f_equal. vec_field. }
  pose proof (sin2_cos2 a) as A. pose proof (sin2_cos2 b) as B. unfold Rsqr in *. split.
  - apply G. unfold dot. cbn. replace (sin a * cos b * (sin a * cos b) + sin a * sin b * (sin a * sin b) + cos a * cos a) with (sin a * sin a * (sin b * sin b + cos b * cos b) + cos a * cos a) by ring. rewrite B. lra.
  - intros down. unfold velocity_vec_xz_plane. replace ((if down then -1 else 1) * cos a) with (if down then - cos a else cos a) by (destruct down; ring). apply G. unfold dot. cbn. destruct down; lra.
Qed.
Print Assumptions C39_angles.

(** ** C46 Focus position *)
(** [rays] are the last states of the trajectories [positions]. *)
Definition ends_at (l : list state) (s : state) : Prop := exists l', l = (l' ++ [s])%list.
Lemma final_samples_ends positions rays : final_samples positions = Ok rays <-> Forall2 ends_at positions rays.
Proof.
  assert (G : forall l s, np_get l (length l - 1) = Ok s <-> ends_at l s).
  { intros l s. destruct l as [|x l] using rev_ind.
    - split; [discriminate|intros ([|? ?] & E); discriminate].
    - rewrite app_length. cbn [length]. replace (length l + 1 - 1)%nat with (length l) by lia. unfold np_get. rewrite nth_error_app2, Nat.sub_diag by lia. cbn. split.
      + intros E. injection E as <-. exists l. reflexivity.
      + intros (l' & E). apply app_inj_tail in E. destruct E as [_ ->]. reflexivity. }
  unfold final_samples. split; intros H.
  - apply mapM_ok in H. induction H; constructor; [apply G; assumption|assumption].
  - induction H as [|l s ls ss H H1 IH]; [reflexivity|]. apply G in H. cbn [mapM]. rewrite H. cbn [bind]. rewrite IH. reflexivity.
Qed.
(** The result minimises the sum of the squared distances between the point and the rays, measured at the height of the point. *)
Theorem C46_least_squares positions rays p : focus_position positions p -> Forall2 ends_at positions rays ->
  forall q, Rsum (map (fun s => dist3 (ray_at s (vz p)) p ^ 2) rays) <= Rsum (map (fun s => dist3 (ray_at s (vz q)) q ^ 2) rays).
Proof.
  intros (rays' & E & V & M) E' q. apply final_samples_ends in E'. rewrite E in E'. injection E' as ->. destruct (M (vz q) (vx q) (vy q)) as [L _]. rewrite !residuals_miss in L by exact V. exact L.
Qed.
Print Assumptions C46_least_squares.
Theorem C46_exact positions rays p a b : Forall2 ends_at positions rays -> (forall s, In s rays -> vz (s_vel s) <> 0) -> (forall s, In s rays -> through s p) ->
  In a rays -> In b rays -> cross (s_vel a) (s_vel b) <> vzero -> focus_position positions p /\ forall q, focus_position positions q -> q = p.
Proof.
  intros E V T Ia Ib N. apply final_samples_ends in E. apply Forall_forall in V. split.
  - exists rays. split; [exact E|]. split; [exact V|]. exact (focus_attained rays p a b V T Ia Ib N).
  - intros q (rays' & E' & _ & M). rewrite E in E'. injection E' as <-. exact (focus_exact rays p q a b V T Ia Ib N M).
Qed.
Print Assumptions C46_exact.
Example C46_nonvacuous : exists positions rays a b, Forall2 ends_at positions rays /\ (forall s, In s rays -> vz (s_vel s) <> 0) /\ (forall s, In s rays -> through s (V3 0 0 2)) /\ In a rays /\ In b rays /\ cross (s_vel a) (s_vel b) <> vzero.
Proof.
  set (a := mkstate (V3 1 0 0) (V3 (-1) 0 2)). set (b := mkstate (V3 0 1 0) (V3 0 (-1) 2)). exists [[b; a]; [b]], [a; b], a, b. split; [repeat constructor; [exists [b]|exists []]; reflexivity|].
  split; [intros s [<-|[<-|[]]]; cbn; lra|]. split; [intros s [<-|[<-|[]]]; exists 1; apply vec_eq; cbn; ring|]. split; [left; reflexivity|]. split; [right; left; reflexivity|].
  unfold cross, a, b. cbn. intros E. injection E as E1 E2 E3. lra.
Qed.
