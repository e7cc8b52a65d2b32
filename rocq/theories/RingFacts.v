(** Charged rings and current loops with exact elliptic integrals. *)
From Coq Require Import Reals Lra Lia Psatz.
From Coquelicot Require Import Coquelicot.
From Verif Require Import Base BaseFacts Vec GeomModel OutwardFacts FieldModel FieldFacts SeriesModel SeriesFacts Field3DFacts EllipticSpec EllipticFacts RingModel.
Local Open Scope R_scope.

(** Squares of the largest and smallest distance from the ring. *)
Definition far2 (r0 z0 r z : R) : R := (z - z0) ^ 2 + (r + r0) ^ 2.
Definition near2 (r0 z0 r z : R) : R := (z - z0) ^ 2 + (r - r0) ^ 2.
Definition modulus (r0 z0 r z : R) : R := 4 * r * r0 / far2 r0 z0 r z.
Lemma far2_pos r0 z0 r z : 0 <= r0 -> 0 < r -> 0 < far2 r0 z0 r z.
Proof. intros. unfold far2. assert (0 < (r + r0) ^ 2) by (apply pow2_gt_0; lra). pose proof (pow2_ge_0 (z - z0)). lra. Qed.
Lemma near2_pos r0 z0 r z : ~ (r0 = r /\ z0 = z) -> 0 < near2 r0 z0 r z.
Proof.
  intros N. unfold near2. destruct (Req_dec z z0) as [->|H].
  - assert (r - r0 <> 0) by (intros E; apply N; split; lra). assert (0 < (r - r0) ^ 2) by (apply pow2_gt_0; assumption). nra.
  - assert (0 < (z - z0) ^ 2) by (apply pow2_gt_0; lra). pose proof (pow2_ge_0 (r - r0)). lra.
Qed.
Lemma modulus_complement r0 z0 r z : far2 r0 z0 r z <> 0 -> 1 - modulus r0 z0 r z = near2 r0 z0 r z / far2 r0 z0 r z.
Proof. intros N. unfold modulus. field_simplify; [|exact N|exact N]. f_equal. unfold far2, near2. ring. Qed.
Lemma modulus_lt_1 r0 z0 r z : 0 < far2 r0 z0 r z -> 0 < near2 r0 z0 r z -> modulus r0 z0 r z < 1.
Proof. intros F N. pose proof (modulus_complement r0 z0 r z ltac:(lra)) as E. assert (0 < near2 r0 z0 r z / far2 r0 z0 r z) by (apply Rdiv_lt_0_compat; assumption). lra. Qed.

(** The code's expressions in these terms *)
Lemma ring_potential_exact r0 z0 r z : far2 r0 z0 r z <> 0 ->
  potential_radial_ring_of exact_km1 r0 z0 r z = r / PI * (elliptic_K (modulus r0 z0 r z) / sqrt (far2 r0 z0 r z)).
Proof.
  intros N. unfold potential_radial_ring_of, exact_km1.
  replace ((z - z0) ^ 2 + (r - r0 + 2 * r0) ^ 2) with (far2 r0 z0 r z) by (unfold far2; ring).
  replace ((z - z0) ^ 2 + (r - r0) ^ 2 + 4 * r0 * (r - r0) + 4 * r0 ^ 2) with (far2 r0 z0 r z) by (unfold far2; ring).
  replace (1 - ((z - z0) ^ 2 + (r - r0) ^ 2) / far2 r0 z0 r z) with (modulus r0 z0 r z).
  - unfold Rdiv. ring.
  - pose proof (modulus_complement r0 z0 r z N). unfold near2 in *. lra.
Qed.
Lemma ring_dr1_exact r0 z0 r z : MIN_DISTANCE_AXIS <= r0 -> 0 < r -> 0 < near2 r0 z0 r z ->
  dr1_potential_radial_ring_of exact_km1 exact_em1 r0 z0 r z =
  - r / (2 * PI * r0 * sqrt (far2 r0 z0 r z)) * (elliptic_K (modulus r0 z0 r z) + (r0 ^ 2 - r ^ 2 - (z - z0) ^ 2) / near2 r0 z0 r z * elliptic_E (modulus r0 z0 r z)).
Proof.
  intros H0 Hr Hn. assert (M : 0 < MIN_DISTANCE_AXIS) by (unfold MIN_DISTANCE_AXIS; lra). pose proof (far2_pos r0 z0 r z ltac:(lra) Hr) as F. pose proof (sqrt_lt_R0 _ F) as S.
  pose proof PI_RGT_0. unfold dr1_potential_radial_ring_of, exact_km1, exact_em1. destruct (Rlt_dec r0 MIN_DISTANCE_AXIS) as [L|_]; [lra|].
  replace (4 * r * r - 4 * (r - r0) * r + (z - z0) * (z - z0) + (r - r0) * (r - r0)) with (far2 r0 z0 r z) by (unfold far2; ring).
  replace (1 - ((z - z0) * (z - z0) + (r - r0) * (r - r0)) / far2 r0 z0 r z) with (modulus r0 z0 r z)
    by (pose proof (modulus_complement r0 z0 r z ltac:(lra)) as E; unfold near2 in E; replace ((z - z0) * (z - z0) + (r - r0) * (r - r0)) with ((z - z0) ^ 2 + (r - r0) ^ 2) by ring; lra).
  replace (-2 * (r - r0) * (r - r0) * r + (z - z0) * (z - z0) * (2 * (r - r0) - 2 * r) + 2 * (r - r0) * (r - r0) * (r - r0)) with (-2 * r0 * near2 r0 z0 r z) by (unfold near2; ring).
  replace ((z - z0) * (z - z0) * r + (r - r0) * (r - r0) * r) with (r * near2 r0 z0 r z) by (unfold near2; ring).
  replace (-2 * (r - r0) * r * r - (z - z0) * (z - z0) * r + (r - r0) * (r - r0) * r) with (r * (r0 ^ 2 - r ^ 2 - (z - z0) ^ 2)) by ring.
  field. repeat split; lra.
Qed.
Lemma ring_dz1_exact r0 z0 r z : 0 <= r0 -> 0 < r -> 0 < near2 r0 z0 r z ->
  dz1_potential_radial_ring_of exact_em1 r0 z0 r z = (z - z0) * r / (PI * near2 r0 z0 r z * sqrt (far2 r0 z0 r z)) * elliptic_E (modulus r0 z0 r z).
Proof.
  intros H0 Hr Hn. pose proof (far2_pos r0 z0 r z H0 Hr) as F. pose proof (sqrt_lt_R0 _ F) as S. pose proof PI_RGT_0.
  unfold dz1_potential_radial_ring_of, exact_em1.
  replace (4 * r0 * r0 + 4 * (r - r0) * r0 + (z - z0) * (z - z0) + (r - r0) * (r - r0)) with (far2 r0 z0 r z) by (unfold far2; ring).
  replace ((z - z0) * (z - z0) + (r - r0) * (r - r0)) with (near2 r0 z0 r z) by (unfold near2; ring).
  replace (1 - near2 r0 z0 r z / far2 r0 z0 r z) with (modulus r0 z0 r z) by (pose proof (modulus_complement r0 z0 r z ltac:(lra)); lra).
  field. repeat split; lra.
Qed.

(** Derivative of the exact potential of a ring along a curve in the (r, z) plane. *)
Lemma far2_derive (rho zeta : R -> R) (s rho' zeta' r z : R) : is_derive rho s rho' -> is_derive zeta s zeta' ->
  is_derive (fun s => far2 (rho s) (zeta s) r z) s (-2 * (z - zeta s) * zeta' + 2 * (r + rho s) * rho').
Proof.
  intros D1 D2. unfold far2. assert (E1 : ex_derive rho s) by (exists rho'; exact D1). assert (E2 : ex_derive zeta s) by (exists zeta'; exact D2).
  auto_derive; [repeat split; assumption|]. change (Derive (fun x => rho x) s) with (Derive rho s). change (Derive (fun x => zeta x) s) with (Derive zeta s). rewrite (is_derive_unique _ _ _ D1), (is_derive_unique _ _ _ D2). req. ring.
Qed.
Lemma profile_derive (rho zeta : R -> R) (s rho' zeta' r z K' : R) : is_derive rho s rho' -> is_derive zeta s zeta' ->
  0 < far2 (rho s) (zeta s) r z -> is_derive elliptic_K (modulus (rho s) (zeta s) r z) K' ->
  let A := far2 (rho s) (zeta s) r z in let A' := -2 * (z - zeta s) * zeta' + 2 * (r + rho s) * rho' in
  is_derive (fun s => elliptic_K (modulus (rho s) (zeta s) r z) / sqrt (far2 (rho s) (zeta s) r z)) s
    (K' * (4 * r * rho' / A - 4 * r * rho s * A' / A ^ 2) / sqrt A - elliptic_K (modulus (rho s) (zeta s) r z) * A' / (2 * A * sqrt A)).
Proof.
  intros D1 D2 P DK A A'. pose proof (far2_derive rho zeta s rho' zeta' r z D1 D2) as DA. fold A in P. fold A' in DA.
  assert (DM : is_derive (fun s => modulus (rho s) (zeta s) r z) s (4 * r * rho' / A - 4 * r * rho s * A' / A ^ 2)).
  { unfold modulus. eapply is_derive_eq.
    - apply (is_derive_div (fun s => 4 * r * rho s) (fun s => far2 (rho s) (zeta s) r z) s (4 * r * rho') A'); [apply (is_derive_scal rho), D1|exact DA|fold A; lra].
    - fold A. req. field. lra. }
  pose proof (is_derive_comp elliptic_K (fun s => modulus (rho s) (zeta s) r z) s _ _ DK DM) as DC.
  assert (DS : is_derive (fun s => sqrt (far2 (rho s) (zeta s) r z)) s (A' / (2 * sqrt A))) by (apply (is_derive_sqrt (fun s => far2 (rho s) (zeta s) r z)); [exact DA|exact P]).
  pose proof (sqrt_lt_R0 _ P) as S. eapply is_derive_eq.
  - apply (is_derive_div _ _ _ _ _ DC DS). fold A. lra.
  - fold A. req. unfold scal; cbn -[pow]; unfold mult; cbn -[pow]. set (m := modulus (rho s) (zeta s) r z). set (w := sqrt A) in *.
    replace A with (w * w) by (apply sqrt_sqrt; lra). field. lra.
Qed.
Lemma ring_algebra (A B w r r0 dz K E rho' zeta' : R) : A = dz ^ 2 + (r + r0) ^ 2 -> B = dz ^ 2 + (r - r0) ^ 2 -> 0 < A -> 0 < B -> 0 < w -> 0 < r -> 0 < r0 -> 
  let A' := -2 * dz * zeta' + 2 * (r + r0) * rho' in
  r / PI * ((E / (B / A) - K) / (2 * (4 * r * r0 / A)) * (4 * r * rho' / A - 4 * r * r0 * A' / A ^ 2) / w - K * A' / (2 * A * w)) =
  - r / (2 * PI * r0 * w) * (K + (r0 ^ 2 - r ^ 2 - dz ^ 2) / B * E) * rho' + dz * r / (PI * B * w) * E * zeta'.
Proof.
  intros QA QB PA PB Pw Pr P0 A'. pose proof PI_RGT_0. unfold A'. field_simplify_eq; [|repeat split; lra]. rewrite QA, QB. ring.
Qed.
Theorem ring_derive (rho zeta : R -> R) (s rho' zeta' r z : R) : is_derive rho s rho' -> is_derive zeta s zeta' ->
  0 < r -> (forall s, 0 <= rho s) -> MIN_DISTANCE_AXIS <= rho s -> ~ (rho s = r /\ zeta s = z) ->
  is_derive (fun s => potential_radial_ring_of exact_km1 (rho s) (zeta s) r z) s
    (dr1_potential_radial_ring_of exact_km1 exact_em1 (rho s) (zeta s) r z * rho' + dz1_potential_radial_ring_of exact_em1 (rho s) (zeta s) r z * zeta').
Proof.
  intros D1 D2 Hr Hp Hm Off. assert (M : 0 < MIN_DISTANCE_AXIS) by (unfold MIN_DISTANCE_AXIS; lra).
  pose proof (near2_pos _ _ _ _ Off) as N. pose proof (far2_pos (rho s) (zeta s) r z (Hp s) Hr) as F. pose proof (sqrt_lt_R0 _ F) as S. pose proof PI_RGT_0.
  pose proof (modulus_lt_1 _ _ _ _ F N) as L. pose proof (modulus_complement (rho s) (zeta s) r z ltac:(lra)) as E.
  assert (Z : modulus (rho s) (zeta s) r z <> 0). { unfold modulus. apply Rgt_not_eq, Rdiv_lt_0_compat; [nra|exact F]. }
  apply (is_derive_ext (fun s => r / PI * (elliptic_K (modulus (rho s) (zeta s) r z) / sqrt (far2 (rho s) (zeta s) r z)))).
  { intros t. symmetry. apply ring_potential_exact. pose proof (far2_pos (rho t) (zeta t) r z (Hp t) Hr). lra. }
  pose proof (K_derive_formula _ L Z) as DK. eapply is_derive_eq; [apply (is_derive_scal (fun s => elliptic_K (modulus (rho s) (zeta s) r z) / sqrt (far2 (rho s) (zeta s) r z))), (profile_derive _ _ _ _ _ _ _ _ D1 D2 F DK)|].
  rewrite ring_dr1_exact, ring_dz1_exact by (try assumption; lra). req.
  transitivity (r / PI * ((elliptic_E (modulus (rho s) (zeta s) r z) / (near2 (rho s) (zeta s) r z / far2 (rho s) (zeta s) r z) - elliptic_K (modulus (rho s) (zeta s) r z)) / (2 * (4 * r * rho s / far2 (rho s) (zeta s) r z)) *
    (4 * r * rho' / far2 (rho s) (zeta s) r z - 4 * r * rho s * (-2 * (z - zeta s) * zeta' + 2 * (r + rho s) * rho') / far2 (rho s) (zeta s) r z ^ 2) / sqrt (far2 (rho s) (zeta s) r z) -
    elliptic_K (modulus (rho s) (zeta s) r z) * (-2 * (z - zeta s) * zeta' + 2 * (r + rho s) * rho') / (2 * far2 (rho s) (zeta s) r z * sqrt (far2 (rho s) (zeta s) r z)))).
  { rewrite E. reflexivity. }
  apply ring_algebra; try assumption; try lra; reflexivity.
Qed.

(** ** On the axis *)
Lemma K'_zero : RInt (K_integrand' 0) 0 (PI / 2) = PI / 8.
Proof.
  rewrite (RInt_eq _ (fun t => / 2 * sin t ^ 2)).
  2: { intros t. unfold K_integrand'. replace (1 - 0 * sin t ^ 2) with 1 by ring. rewrite sqrt_1. req. field. }
  assert (I : is_RInt (fun t => / 2 * sin t ^ 2) 0 (PI / 2) ((fun t => / 4 * (t - sin t * cos t)) (PI / 2) - (fun t => / 4 * (t - sin t * cos t)) 0)).
  { apply (is_RInt_derive (V := R_CompleteNormedModule) (fun t => / 4 * (t - sin t * cos t))).
    - intros t _. auto_derive; [exact I|]. pose proof (cos_sqr t) as C. cbn [pow] in *. rewrite !Rmult_1_r in *. req. field_simplify. replace (cos t ^ 2) with (1 - sin t * sin t) by (rewrite <- C; ring). field.
    - intros t _. apply (ex_derive_continuous (V := R_NormedModule)). auto_derive. exact Logic.I. }
  apply (is_RInt_unique (V := R_CompleteNormedModule)) in I. etransitivity; [exact I|]. cbv beta. rewrite cos_PI2, sin_0. req. field.
Qed.
(** The exact potential of a ring is an even function of the distance from the axis. *)
Lemma profile_even r0 z0 r z : 0 < far2 r0 z0 r z -> 0 < near2 r0 z0 r z ->
  elliptic_K (modulus (- r0) z0 r z) / sqrt (far2 (- r0) z0 r z) = elliptic_K (modulus r0 z0 r z) / sqrt (far2 r0 z0 r z).
Proof.
  intros F N. assert (F' : far2 (- r0) z0 r z = near2 r0 z0 r z) by (unfold far2, near2; ring).
  pose proof (modulus_lt_1 _ _ _ _ F N) as L. rewrite (K_transform _ L), modulus_complement by lra.
  replace (modulus r0 z0 r z / (modulus r0 z0 r z - 1)) with (modulus (- r0) z0 r z).
  - rewrite F', sqrt_div_alt by exact F. pose proof (sqrt_lt_R0 _ F). pose proof (sqrt_lt_R0 _ N). field. lra.
  - replace (modulus r0 z0 r z - 1) with (- (near2 r0 z0 r z / far2 r0 z0 r z)) by (pose proof (modulus_complement r0 z0 r z ltac:(lra)); lra).
    unfold modulus. rewrite F'. field. lra.
Qed.
Lemma line_distance (dx dy s : R) : norm_2d (s * dx) (s * dy) = Rabs (s * norm_2d dx dy).
Proof.
  unfold norm_2d. replace (s * dx * (s * dx) + s * dy * (s * dy)) with ((s * s) * (dx * dx + dy * dy)) by ring. rewrite sqrt_mult by nra.
  rewrite Rabs_mult, (Rabs_pos_eq (sqrt (dx * dx + dy * dy))) by apply sqrt_pos. f_equal. exact (sqrt_Rsqr_abs s).
Qed.
Theorem ring_derive_axis (c z0 dz r z : R) : 0 < r ->
  is_derive (fun s => potential_radial_ring_of exact_km1 (Rabs (s * c)) (z0 + s * dz) r z) 0 (dz1_potential_radial_ring_of exact_em1 0 z0 r z * dz).
Proof.
  intros Hr. pose proof PI_RGT_0.
  assert (F0 : 0 < far2 (0 * c) (z0 + 0 * dz) r z) by (apply far2_pos; lra).
  assert (C2 : locally (0 : R) (fun s => 0 < near2 (s * c) (z0 + s * dz) r z)).
  { apply (locally_open (fun s => 0 < near2 (s * c) (z0 + s * dz) r z)); [|intros x Hx; exact Hx|].
    - apply (open_comp (fun s => near2 (s * c) (z0 + s * dz) r z) (fun x => 0 < x)); [|apply open_gt].
      intros x _. apply (ex_derive_continuous (V := R_NormedModule) (fun s => near2 (s * c) (z0 + s * dz) r z)). unfold near2. auto_derive. exact I.
    - unfold near2 in *. unfold far2 in F0. replace ((r - 0 * c) ^ 2) with ((r + 0 * c) ^ 2) by ring. exact F0. }
  assert (C1 : locally (0 : R) (fun s => 0 < far2 (s * c) (z0 + s * dz) r z)).
  { apply (locally_open (fun s => 0 < far2 (s * c) (z0 + s * dz) r z)); [|intros x Hx; exact Hx|exact F0].
    apply (open_comp (fun s => far2 (s * c) (z0 + s * dz) r z) (fun x => 0 < x)); [|apply open_gt].
    intros x _. apply (ex_derive_continuous (V := R_NormedModule) (fun s => far2 (s * c) (z0 + s * dz) r z)). unfold far2. auto_derive. exact I. }
  apply (is_derive_ext_loc (fun s => r / PI * (elliptic_K (modulus (s * c) (z0 + s * dz) r z) / sqrt (far2 (s * c) (z0 + s * dz) r z)))).
  { eapply filter_imp; [|exact (filter_and _ _ C1 C2)]. intros s (A1 & A2). cbv beta in A1, A2.
    rewrite ring_potential_exact by (pose proof (far2_pos (Rabs (s * c)) (z0 + s * dz) r z (Rabs_pos _) Hr); lra). f_equal.
    unfold Rabs. destruct (Rcase_abs (s * c)) as [Neg|Pos]; [|reflexivity]. symmetry. apply profile_even; assumption. }
  assert (D1 : is_derive (fun s => s * c) 0 c) by (auto_derive; [exact I|ring]). assert (D2 : is_derive (fun s => z0 + s * dz) 0 dz) by (auto_derive; [exact I|ring]).
  assert (M0 : modulus (0 * c) (z0 + 0 * dz) r z = 0) by (unfold modulus; unfold Rdiv; ring).
  assert (DK : is_derive elliptic_K (modulus (0 * c) (z0 + 0 * dz) r z) (PI / 8)) by (rewrite M0; eapply is_derive_eq; [apply K_derive; lra|exact K'_zero]).
  eapply is_derive_eq; [apply (is_derive_scal (fun s => elliptic_K (modulus (s * c) (z0 + s * dz) r z) / sqrt (far2 (s * c) (z0 + s * dz) r z))), (profile_derive (fun s => s * c) (fun s => z0 + s * dz) 0 c dz r z _ D1 D2 F0 DK)|].
  rewrite M0, K_zero. replace (z0 + 0 * dz) with z0 in * by ring. replace (0 * c) with 0 in * by ring.
  assert (N0 : near2 0 z0 r z = far2 0 z0 r z) by (unfold near2, far2; ring).
  rewrite ring_dz1_exact by (rewrite ?N0; lra). rewrite N0. replace (modulus 0 z0 r z) with 0 by (symmetry; exact M0). rewrite E_zero.
  pose proof (sqrt_lt_R0 _ F0). req. field. lra.
Qed.

(** ** The field of rings is minus the gradient of their potential *)
(** Every effective charge is a ring of positive radius that does not pass through [p]. *)
Definition off_rings (c : charges) (p : vec3) : Prop :=
  forall x jp, In x (q_items c) -> In jp (snd x) -> 0 < vx (snd jp) /\ ~ (norm_2d (vx p) (vy p) = vx (snd jp) /\ vz p = vz (snd jp)).
Lemma norm_2d_nonneg x y : 0 <= norm_2d x y.
Proof. apply sqrt_pos. Qed.
Lemma norm_2d_line_derive (p d : vec3) : 0 < norm_2d (vx p) (vy p) ->
  is_derive (fun t => norm_2d (vx (vadd p (vscale t d))) (vy (vadd p (vscale t d)))) 0 ((vx p * vx d + vy p * vy d) / norm_2d (vx p) (vy p)).
Proof.
  destruct p as [px py pz], d as [dx dy dz]. unfold norm_2d, vadd, vscale. cbn [vx vy]. intros P. pose proof P as P'. rewrite <- sqrt_0 in P'. apply sqrt_lt_0_alt in P'.
  auto_derive.
  - replace (px + 0 * dx) with px by ring. replace (py + 0 * dy) with py by ring. exact P'.
  - replace (px + 0 * dx) with px by ring. replace (py + 0 * dy) with py by ring. req. field. lra.
Qed.
Lemma evaluate_lin2 (a b : R) K1 K2 q : evaluate (fun v => K1 v * a + K2 v * b) q = evaluate K1 q * a + evaluate K2 q * b.
Proof.
  rewrite <- (Rplus_0_r (_ + _)), <- (Rmult_0_l (evaluate K2 q)). rewrite (Rmult_comm _ a), (Rmult_comm (evaluate K2 q) b), <- evaluate_lin3.
  unfold evaluate, source_sum. apply Rsum_ext. intros x _. f_equal. apply Rsum_ext. intros y _. ring.
Qed.
Theorem rings_gradient c p : off_rings c p -> (MIN_DISTANCE_AXIS <= norm_2d (vx p) (vy p) \/ vx p = 0 /\ vy p = 0) ->
  gradient (fun x => potential_radial_of exact_km1 x c) p (vneg (field_radial_of exact_km1 exact_em1 p c)).
Proof.
  intros O [Far|[X Y]] d; assert (M : 0 < MIN_DISTANCE_AXIS) by (unfold MIN_DISTANCE_AXIS; lra).
  - pose proof (norm_2d_line_derive p d ltac:(lra)) as D1. set (rho := fun t => norm_2d (vx (vadd p (vscale t d))) (vy (vadd p (vscale t d)))) in *.
    assert (D2 : is_derive (fun t => vz (vadd p (vscale t d))) 0 (vz d)) by (cbn; auto_derive; [exact I|ring]). set (zeta := fun t => vz (vadd p (vscale t d))) in *.
    assert (R0 : rho 0 = norm_2d (vx p) (vy p)) by (unfold rho; f_equal; cbn; ring). assert (Z0 : zeta 0 = vz p) by (unfold zeta; cbn; ring).
    unfold potential_radial_of. eapply is_derive_eq.
    + apply (evaluate_derive (fun t q => potential_radial_ring_of exact_km1 (rho t) (zeta t) (vx q) (vz q))
        (fun q => dr1_potential_radial_ring_of exact_km1 exact_em1 (rho 0) (zeta 0) (vx q) (vz q) * ((vx p * vx d + vy p * vy d) / norm_2d (vx p) (vy p)) + dz1_potential_radial_ring_of exact_em1 (rho 0) (zeta 0) (vx q) (vz q) * vz d)).
      intros y jp Hy Hj. destruct (O y jp Hy Hj) as (Hr & Hoff). apply ring_derive; try assumption; [intros t; apply norm_2d_nonneg|rewrite R0; exact Far|rewrite R0, Z0; exact Hoff].
    + rewrite evaluate_lin2, R0, Z0. unfold field_radial_of, from_cylinder. destruct (Rle_dec MIN_DISTANCE_AXIS _) as [_|C]; [|contradiction].
      unfold dot, vneg. cbn [vx vy vz]. field. lra.
  - assert (R0 : norm_2d (vx p) (vy p) = 0) by (rewrite X, Y; unfold norm_2d; replace (0 * 0 + 0 * 0) with 0 by ring; exact sqrt_0).
    apply (is_derive_ext (fun t => evaluate (fun q => potential_radial_ring_of exact_km1 (Rabs (t * norm_2d (vx d) (vy d))) (vz p + t * vz d) (vx q) (vz q)) c)).
    { intros t. unfold potential_radial_of. cbn [vx vy vz vadd vscale]. rewrite X, Y, !Rplus_0_l, line_distance. reflexivity. }
    eapply is_derive_eq.
    + apply (evaluate_derive (fun t q => potential_radial_ring_of exact_km1 (Rabs (t * norm_2d (vx d) (vy d))) (vz p + t * vz d) (vx q) (vz q)) (fun q => dz1_potential_radial_ring_of exact_em1 0 (vz p) (vx q) (vz q) * vz d)).
      intros y jp Hy Hj. destruct (O y jp Hy Hj) as (Hr & _). apply ring_derive_axis, Hr.
    + unfold field_radial_of, from_cylinder. rewrite R0. destruct (Rle_dec MIN_DISTANCE_AXIS 0) as [C|_]; [lra|]. unfold dot, vneg. cbn [vx vy vz].
      assert (Q : evaluate (fun q => dz1_potential_radial_ring_of exact_em1 0 (vz p) (vx q) (vz q) * vz d) c = evaluate (fun q => dz1_potential_radial_ring_of exact_em1 0 (vz p) (vx q) (vz q)) c * vz d).
      { pose proof (evaluate_lin2 (vz d) 0 (fun q => dz1_potential_radial_ring_of exact_em1 0 (vz p) (vx q) (vz q)) (fun _ => 0) c) as L. rewrite Rmult_0_r, Rplus_0_r in L. rewrite <- L.
        unfold evaluate, source_sum. apply Rsum_ext. intros x _. f_equal. apply Rsum_ext. intros y _. ring. }
      rewrite Q. ring.
Qed.
