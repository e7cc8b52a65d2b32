(** Property theorems about the accuracy of the three-dimensional series around the axis: C90. *)
From Coq Require Import Reals ZArith Lra Lia Psatz.
From Coquelicot Require Import Coquelicot.
From Verif Require Import Base BaseFacts Vec GeomModel PathModel PathOpsFacts OutwardFacts FieldModel SeriesModel SeriesFacts InterpFacts Field3DFacts Axial3DModel Axial3DFacts HarmonicFacts AxialTable.
From Verif Require Import AxialErrorFacts.
From Verif Require LegendreFacts RadialSeriesFacts GegenbauerFacts Props_RadialSeries.
From Verif Require Import Props_Axial3D Props_Expansion Series3DFacts Series3DFieldFacts Series3DZFacts.
Local Open Scope R_scope.

(** ** C90 Accuracy of the three-dimensional series *)
(** A point at distance r from the axis and height z is nearer to the axis than every charge is to the foot of the point on the axis. *)
Definition nearer_than_charges (r z : R) (c : charges) : Prop := forall x jp, In x (q_items c) -> In jp (snd x) -> r < dist_axis (snd jp) z.
(** A row of the table, at the distance d above its sample, reproduces the coefficients of the charges at height z up to eps and their
    derivatives with respect to the height up to eps'. *)
Definition reproduces (row : coeff3d_row) (d : R) (c : charges) (z : R) (eps eps' : nat -> nat -> R) : Prop := forall sine nu m, (nu < 4)%nat -> (m < 8)%nat ->
  Rabs (cubic_at (row sine nu m) d - axial_coefficient sine z c nu m) <= eps nu m /\
  Rabs (cubic_diff (row sine nu m) d - Derive (fun z => axial_coefficient sine z c nu m) z) <= eps' nu m.

Definition code_slope (A B : nat -> nat -> R) (r phi a b : R) (nu m : nat) : R :=
  ((A nu m * cos (INR m * phi) + B nu m * sin (INR m * phi)) * INR (2 * nu + m) * a + INR m * (A nu m * sin (INR m * phi) - B nu m * cos (INR m * phi)) * b) * r ^ (2 * nu + m - 1).
Lemma code_slopes A B r phi nu m : 0 < r ->
  field3d_term A B r phi (r * cos phi) (r * sin phi) nu m = (code_slope A B r phi (cos phi) (sin phi) nu m, code_slope A B r phi (sin phi) (- cos phi) nu m).
Proof.
  intros Hr. unfold field3d_term, code_slope. cbv zeta.
  assert (E : INR m * r ^ (2 * nu + m) = INR m * (r ^ (2 * nu + m - 1) * r)).
  { destruct (2 * nu + m)%nat as [|k] eqn:K; [replace m with 0%nat by lia; cbn; ring|]. replace (S k - 1)%nat with k by lia. cbn. ring. }
  set (Am := A nu m). set (Bm := B nu m). set (cm := cos (INR m * phi)). set (sm := sin (INR m * phi)). set (k := r ^ (2 * nu + m - 1)) in *. set (rn := r ^ (2 * nu + m)) in *.
  f_equal.
  - transitivity ((Am * cm + Bm * sm) * INR (2 * nu + m) * k * cos phi + (Am * sm - Bm * cm) * (INR m * rn) * (sin phi / r)); [field; lra|]. rewrite E. field. lra.
  - transitivity ((Am * cm + Bm * sm) * INR (2 * nu + m) * k * sin phi + (Am * sm - Bm * cm) * (INR m * rn) * (- cos phi / r)); [field; lra|]. rewrite E. field. lra.
Qed.
(** errors of the coefficients *)
Lemma term_perturbed A B A' B' eps r phi nu m : 0 <= r -> Rabs (A nu m - A' nu m) <= eps -> Rabs (B nu m - B' nu m) <= eps ->
  Rabs (potential3d_term A B r phi nu m - potential3d_term A' B' r phi nu m) <= 2 * eps * r ^ (2 * nu + m).
Proof.
  intros Hr HA HB. unfold potential3d_term. replace (m + 2 * nu)%nat with (2 * nu + m)%nat by lia. pose proof (pow_le r (2 * nu + m) Hr) as P.
  replace ((A nu m * cos (INR m * phi) + B nu m * sin (INR m * phi)) * r ^ (2 * nu + m) - (A' nu m * cos (INR m * phi) + B' nu m * sin (INR m * phi)) * r ^ (2 * nu + m))
    with (((A nu m - A' nu m) * cos (INR m * phi) + (B nu m - B' nu m) * sin (INR m * phi)) * r ^ (2 * nu + m)) by ring.
  rewrite Rabs_mult, (Rabs_pos_eq (r ^ _)) by exact P. apply Rmult_le_compat_r; [exact P|]. eapply Rle_trans; [apply Rabs_triang|]. rewrite !Rabs_mult.
  assert (C : Rabs (cos (INR m * phi)) <= 1) by (apply Rabs_le, COS_bound). assert (S : Rabs (sin (INR m * phi)) <= 1) by (apply Rabs_le, SIN_bound).
  pose proof (Rabs_pos (A nu m - A' nu m)). pose proof (Rabs_pos (B nu m - B' nu m)). pose proof (Rabs_pos (cos (INR m * phi))). pose proof (Rabs_pos (sin (INR m * phi))). nra.
Qed.
Lemma weighted_unit k l u v a b : 0 <= l <= k -> u ^ 2 + v ^ 2 = 1 -> a ^ 2 + b ^ 2 = 1 -> Rabs (k * u * a + l * v * b) <= k.
Proof.
  intros Hk U V. apply Rabs_le. assert (- 1 <= u * a <= 1) by nra. assert (- 1 <= v * b <= 1) by nra.
  pose proof (Rle_0_sqr (u - a)) as S1. pose proof (Rle_0_sqr (u + a)) as S2. pose proof (Rle_0_sqr (v - b)) as S3. pose proof (Rle_0_sqr (v + b)) as S4. unfold Rsqr in *.
  assert (M1 : u * a + v * b <= 1) by nra. assert (M2 : - 1 <= u * a + v * b) by nra. assert (M3 : u * a - v * b <= 1) by nra. assert (M4 : - 1 <= u * a - v * b) by nra.
  replace (k * u * a + l * v * b) with ((k + l) / 2 * (u * a + v * b) + (k - l) / 2 * (u * a - v * b)) by field. split; nra.
Qed.
Lemma slope_perturbed A B A' B' eps r phi a b nu m : 0 <= r -> a ^ 2 + b ^ 2 = 1 -> Rabs (A nu m - A' nu m) <= eps -> Rabs (B nu m - B' nu m) <= eps ->
  Rabs (code_slope A B r phi a b nu m - code_slope A' B' r phi a b nu m) <= 2 * eps * INR (2 * nu + m) * r ^ (2 * nu + m - 1).
Proof.
  intros Hr U HA HB. unfold code_slope. pose proof (pow_le r (2 * nu + m - 1) Hr) as P. set (k := INR (2 * nu + m)) in *.
  assert (Hk : 0 <= INR m <= k) by (split; [apply pos_INR|apply le_INR; lia]).
  set (u := cos (INR m * phi)). set (v := sin (INR m * phi)). assert (T : u ^ 2 + v ^ 2 = 1) by (pose proof (sin2_cos2 (INR m * phi)) as T; unfold Rsqr in T; unfold u, v; lra).
  set (x := A nu m - A' nu m) in *. set (y := B nu m - B' nu m) in *.
  replace (((A nu m * u + B nu m * v) * k * a + INR m * (A nu m * v - B nu m * u) * b) * r ^ (2 * nu + m - 1) - ((A' nu m * u + B' nu m * v) * k * a + INR m * (A' nu m * v - B' nu m * u) * b) * r ^ (2 * nu + m - 1))
    with ((x * (k * u * a + INR m * v * b) + y * (k * v * a + INR m * (- u) * b)) * r ^ (2 * nu + m - 1)) by (unfold x, y; ring).
  rewrite Rabs_mult, (Rabs_pos_eq (r ^ _)) by exact P. apply Rmult_le_compat_r; [exact P|]. eapply Rle_trans; [apply Rabs_triang|]. rewrite !Rabs_mult.
  pose proof (weighted_unit k (INR m) u v a b Hk T U) as W1. pose proof (weighted_unit k (INR m) v (- u) a b Hk ltac:(lra) U) as W2.
  pose proof (Rabs_pos x). pose proof (Rabs_pos y). pose proof (Rabs_pos (k * u * a + INR m * v * b)). pose proof (Rabs_pos (k * v * a + INR m * (- u) * b)).
  assert (Rabs x * Rabs (k * u * a + INR m * v * b) <= eps * k) by (apply Rmult_le_compat; assumption). assert (Rabs y * Rabs (k * v * a + INR m * - u * b) <= eps * k) by (apply Rmult_le_compat; assumption). lra.
Qed.
(** the exact coefficients of the charges *)
Lemma slopes_of_charges z r phi a b c : away_from_axis c ->
  sum_nu_m (code_slope (axial_coefficient false z c) (axial_coefficient true z c) r phi a b) = evaluate (point_slope z r phi a b) c.
Proof.
  intros Off.
  transitivity (sum_nu_m (fun nu m => evaluate (fun q => (cos (INR m * phi) * INR (2 * nu + m) * a + INR m * sin (INR m * phi) * b) * r ^ (2 * nu + m - 1) * axial_term trig_cos z nu m q +
    (sin (INR m * phi) * INR (2 * nu + m) * a - INR m * cos (INR m * phi) * b) * r ^ (2 * nu + m - 1) * axial_term trig_sin z nu m q) c)).
  { apply sum_nu_m_ext. intros nu m. rewrite evaluate_lin2. unfold code_slope, axial_coefficient. ring. }
  rewrite evaluate_sum_nu_m. apply evaluate_ext. intros x Hx jp Hjp. set (q := snd jp). pose proof (Off x jp Hx Hjp) as O. fold q in O.
  pose proof (dist_axis_pos q z O) as PD. pose proof PI_RGT_0 as PP. unfold point_slope. rewrite <- sum_nu_m_scal. apply sum_nu_m_ext_in. intros nu m Hn Hm.
  destruct (axial_term_value q z nu m Hn Hm O) as [E1 E2]. rewrite E1, E2. unfold point_coef, slope_term.
  rewrite (Rmult_minus_distr_l (INR m)), cos_minus, sin_minus. destruct (2 * nu + m)%nat as [|k] eqn:K.
  - replace m with 0%nat by lia. cbn [INR Nat.sub pow]. rewrite !Rmult_0_l, sin_0, cos_0. field. split; lra.
  - replace (S k - 1)%nat with k by lia. unfold Rdiv. rewrite Rpow_mult_distr, pow_inv. cbn [pow]. field. repeat split; try lra. apply pow_nonzero. lra.
Qed.
Lemma lifts_of_charges z r phi c : away_from_axis c ->
  sum_nu_m (potential3d_term (fun nu m => Derive (fun z => axial_coefficient false z c nu m) z) (fun nu m => Derive (fun z => axial_coefficient true z c nu m) z) r phi) = evaluate (point_lift z r phi) c.
Proof.
  intros Off.
  transitivity (sum_nu_m (fun nu m => evaluate (fun q => cos (INR m * phi) * r ^ (m + 2 * nu) * (rounding nu m * (lift_coef q z (2 * nu + m) m * trig false m q)) + sin (INR m * phi) * r ^ (m + 2 * nu) * (rounding nu m * (lift_coef q z (2 * nu + m) m * trig true m q))) c)).
  { apply sum_nu_m_ext_in. intros nu m Hn Hm. rewrite evaluate_lin2. unfold potential3d_term.
    assert (E : forall sine, Derive (fun z => axial_coefficient sine z c nu m) z = evaluate (fun q => rounding nu m * (lift_coef q z (2 * nu + m) m * trig sine m q)) c) by (intros sine; apply is_derive_unique, coefficient_derive; assumption).
    cbv beta. rewrite !E. ring. }
  rewrite evaluate_sum_nu_m. apply evaluate_ext. intros x Hx jp Hjp. set (q := snd jp). pose proof (Off x jp Hx Hjp) as O. fold q in O.
  pose proof (dist_axis_pos q z O) as PD. pose proof PI_RGT_0 as PP. unfold point_lift. rewrite <- sum_nu_m_scal. apply sum_nu_m_ext. intros nu m.
  unfold lift_coef, lift_term, trig. rewrite (Rmult_minus_distr_l (INR m)), cos_minus. replace (m + 2 * nu)%nat with (2 * nu + m)%nat by lia. unfold Rdiv. rewrite Rpow_mult_distr, pow_inv, (pow_add _ (2 * nu + m) 3).
  field. repeat split; try lra. apply pow_nonzero. lra.
Qed.
(** the potential and the field of a unit charge *)
Lemma point_distance q z phi r : norm (vsub q (V3 (r * cos phi) (r * sin phi) z)) = sqrt (RadialSeriesFacts.len2 (dist_axis q z) (along q phi) r).
Proof.
  unfold norm, vsub. cbn [vx vy vz]. f_equal. unfold RadialSeriesFacts.len2. rewrite dist_axis_sqr. unfold along. pose proof (sin2_cos2 phi) as T. unfold Rsqr in T.
  transitivity (r * r * (sin phi * sin phi + cos phi * cos phi) - 2 * (vx q * cos phi + vy q * sin phi) * r + (vx q * vx q + vy q * vy q + (vz q - z) * (vz q - z))); [ring|rewrite T; ring].
Qed.
Lemma polar_turned q phi : let t := phi - atan2 (vy q) (vx q) in
  rho q * (cos t * cos phi + sin t * sin phi) = vx q /\ rho q * (cos t * sin phi + sin t * - cos phi) = vy q.
Proof.
  cbv zeta. destruct (atan2_polar (vx q) (vy q)) as [X Y]. fold (norm_2d (vx q) (vy q)) in X, Y. fold (rho q) in X, Y. set (mu := atan2 (vy q) (vx q)) in *.
  split; [rewrite <- X|rewrite <- Y]; f_equal.
  - rewrite <- cos_minus. replace (phi - mu - phi) with (- mu) by ring. apply cos_neg.
  - replace (cos (phi - mu) * sin phi + sin (phi - mu) * - cos phi) with (sin phi * cos (phi - mu) - cos phi * sin (phi - mu)) by ring. rewrite <- sin_minus. f_equal. ring.
Qed.

(** The potential of the series (three_d.c:200-237) and every component of its field (three_d.c:239-300) at a point at the distance r
    from the axis, for charges at the distances D from the foot of the point on the axis. *)
Theorem C90_series z0 h N coeff j row c p eps eps' : 0 < h -> (2 <= N)%nat -> length coeff = (N - 1)%nat ->
  (S j < N)%nat -> z0 + INR j * h <= vz p < z0 + (INR j + 1) * h -> nth_error coeff j = Some row ->
  reproduces row (vz p - (z0 + INR j * h)) c (vz p) eps eps' ->
  let r := norm_2d (vx p) (vy p) in
  away_from_axis c -> nearer_than_charges r (vz p) c -> on_or_off_axis p ->
  exists V E, potential_3d_derivs p (samples z0 h N) coeff = Ok V /\ field_3d_derivs p (samples z0 h N) coeff = Ok E /\
    Rabs (V - potential_3d p c) <=
      weight (fun q => let D := dist_axis q (vz p) in 1 / (4 * PI) * ((r / D) ^ 8 * ((D + r) / (D - r) ^ 2 + 24 / D) + 64e-15 / D)) c +
      sum_nu_m (fun nu m => 2 * eps nu m * r ^ (2 * nu + m)) /\
    Rmax (Rabs (vx E - vx (field_3d p c))) (Rabs (vy E - vy (field_3d p c))) <=
      weight (fun q => let D := dist_axis q (vz p) in 1 / (4 * PI) * ((r / D) ^ 7 * (64 * D * ((D + r) / D) ^ 2 / (D - r) ^ 3 + 236 / D ^ 2) + 416e-15 / D ^ 2)) c +
      sum_nu_m (fun nu m => 2 * eps nu m * INR (2 * nu + m) * r ^ (2 * nu + m - 1)) /\
    Rabs (vz E - vz (field_3d p c)) <=
      weight (fun q => let D := dist_axis q (vz p) in 1 / (4 * PI) * Rabs (vz q - vz p) * ((r / D) ^ 8 * (45 * ((D + r) / D) ^ 2 / (D - r) ^ 3 + 1568 / D ^ 3) + 2368e-15 / D ^ 3)) c +
      sum_nu_m (fun nu m => 2 * eps' nu m * r ^ (2 * nu + m)).
Proof.
  intros Hh HN Hl Hj Hc Hrow Rep r Off Near OO. set (z := vz p) in *. set (d := z - (z0 + INR j * h)) in *.
  set (phi := atan2 (vy p) (vx p)).
  assert (Pp : p = V3 (r * cos phi) (r * sin phi) z).
  { destruct p as [x y w]. unfold r, phi, z. cbn [vx vy vz]. destruct (atan2_polar x y) as [X Y]. fold (norm_2d x y) in X, Y. rewrite X, Y. reflexivity. }
  assert (Hr : 0 <= r) by (unfold r, norm_2d; apply sqrt_pos).
  set (A := fun nu m => cubic_at (row false nu m) d). set (B := fun nu m => cubic_at (row true nu m) d).
  set (A' := fun nu m => cubic_diff (row false nu m) d). set (B' := fun nu m => cubic_diff (row true nu m) d).
  assert (RowE : series3d_row (samples z0 h N) coeff (vz p) = Ok (Some (row, d))).
  { destruct (row3d_inside z0 h N coeff (vz p) j Hh Hj Hc Hl) as (row' & Hr' & E). rewrite Hrow in Hr'. injection Hr' as <-. exact E. }
  exists (sum_nu_m (potential3d_term A B r phi)),
    (V3 (- sum_nu_m (code_slope A B r phi (cos phi) (sin phi))) (- sum_nu_m (code_slope A B r phi (sin phi) (- cos phi))) (- sum_nu_m (potential3d_term A' B' r phi))).
  split; [unfold potential_3d_derivs; rewrite RowE; reflexivity|]. split; [|split; [|split]].
  - unfold field_3d_derivs. rewrite RowE. cbn [bind]. f_equal. fold r phi. destruct (Rlt_dec r MIN_DISTANCE_AXIS) as [L|L].
    + destruct OO as [[X Y]|O']; [|unfold MIN_DISTANCE_AXIS in L; fold r in O'; lra].
      assert (R0 : r = 0) by (unfold r, norm_2d; rewrite X, Y; replace (0 * 0 + 0 * 0) with 0 by ring; apply sqrt_0).
      pose proof (sin2_cos2 phi) as T. unfold Rsqr in T.
      f_equal; f_equal; unfold sum_nu_m, arange, NU_MAX, M_MAX, code_slope, potential3d_term; rewrite R0; cbn [seq map Rsum Nat.mul Nat.add Nat.sub pow INR]; rewrite ?Rmult_0_l, ?Rmult_1_l, ?cos_0, ?sin_0.
      * transitivity (A 0%nat 1%nat * (sin phi * sin phi + cos phi * cos phi)); [rewrite T; unfold A; ring|ring].
      * transitivity (B 0%nat 1%nat * (sin phi * sin phi + cos phi * cos phi)); [rewrite T; unfold B; ring|ring].
      * unfold A'. ring.
    + assert (R0 : 0 < r) by (unfold MIN_DISTANCE_AXIS in L; lra). assert (X : vx p = r * cos phi) by (rewrite Pp; reflexivity). assert (Y : vy p = r * sin phi) by (rewrite Pp; reflexivity). rewrite X, Y.
      f_equal; f_equal; try reflexivity; apply sum_nu_m_ext; intros nu m; rewrite code_slopes by exact R0; reflexivity.
  - replace (potential_3d p c) with (potential_3d (V3 (r * cos phi) (r * sin phi) z) c) by (rewrite <- Pp; reflexivity).
    replace (sum_nu_m (potential3d_term A B r phi) - potential_3d (V3 (r * cos phi) (r * sin phi) z) c) with
      ((sum_nu_m (potential3d_term (axial_coefficient false z c) (axial_coefficient true z c) r phi) - potential_3d (V3 (r * cos phi) (r * sin phi) z) c) +
       sum_nu_m (fun nu m => potential3d_term A B r phi nu m - potential3d_term (axial_coefficient false z c) (axial_coefficient true z c) r phi nu m)).
    2: { enough (Es : sum_nu_m (potential3d_term A B r phi) = sum_nu_m (fun nu m => (potential3d_term A B r phi nu m - potential3d_term (axial_coefficient false z c) (axial_coefficient true z c) r phi nu m) + potential3d_term (axial_coefficient false z c) (axial_coefficient true z c) r phi nu m)) by (rewrite Es, sum_nu_m_plus; ring).
      apply sum_nu_m_ext. intros; ring. }
    eapply Rle_trans; [apply Rabs_triang|]. apply Rplus_le_compat.
    + rewrite series_of_charges by exact Off. unfold potential_3d. rewrite Props_RadialSeries.evaluate_minus. apply evaluate_abs. intros x Hx jp Hjp.
      apply point_series_error; [exact (Off x jp Hx Hjp)|]. split; [exact Hr|exact (Near x jp Hx Hjp)].
    + apply sum_nu_m_abs. intros nu m Hn Hm. apply term_perturbed; [exact Hr|apply (Rep false nu m Hn Hm)|apply (Rep true nu m Hn Hm)].
  - assert (Slope : forall a b K, a ^ 2 + b ^ 2 = 1 -> (forall q, vx q <> 0 \/ vy q <> 0 -> K q = 1 / (4 * PI) * ((rho q * (cos (phi - atan2 (vy q) (vx q)) * a + sin (phi - atan2 (vy q) (vx q)) * b) - r * a) / sqrt (RadialSeriesFacts.len2 (dist_axis q z) (along q phi) r) ^ 3)) ->
      Rabs (- sum_nu_m (code_slope A B r phi a b) - - evaluate K c) <= weight (slope3d_error z r) c + sum_nu_m (fun nu m => 2 * eps nu m * INR (2 * nu + m) * r ^ (2 * nu + m - 1))).
    { intros a b K U HK. set (C := code_slope (axial_coefficient false z c) (axial_coefficient true z c) r phi a b).
      replace (- sum_nu_m (code_slope A B r phi a b) - - evaluate K c) with (- ((sum_nu_m C - evaluate K c) + sum_nu_m (fun nu m => code_slope A B r phi a b nu m - C nu m))).
      2: { enough (Es : sum_nu_m (code_slope A B r phi a b) = sum_nu_m (fun nu m => (code_slope A B r phi a b nu m - C nu m) + C nu m)) by (rewrite Es, sum_nu_m_plus; ring).
        apply sum_nu_m_ext. intros; ring. }
      rewrite Rabs_Ropp. eapply Rle_trans; [apply Rabs_triang|]. apply Rplus_le_compat.
      - unfold C. rewrite slopes_of_charges by exact Off. rewrite Props_RadialSeries.evaluate_minus. apply evaluate_abs. intros x Hx jp Hjp.
        rewrite HK by exact (Off x jp Hx Hjp). apply point_slope_error; [exact (Off x jp Hx Hjp)| |exact U]. split; [exact Hr|exact (Near x jp Hx Hjp)].
      - apply sum_nu_m_abs. intros nu m Hn Hm. apply slope_perturbed; [exact Hr|exact U|apply (Rep false nu m Hn Hm)|apply (Rep true nu m Hn Hm)]. }
    pose proof (sin2_cos2 phi) as T. unfold Rsqr in T. pose proof PI_RGT_0 as PP.
    assert (Pos : forall q K, K / (4 * PI * norm (vsub q (V3 (r * cos phi) (r * sin phi) z)) ^ 3) = 1 / (4 * PI) * (K / sqrt (RadialSeriesFacts.len2 (dist_axis q z) (along q phi) r) ^ 3)).
    { intros q K. rewrite point_distance. unfold Rdiv. rewrite Rinv_mult. ring. }
    apply Rmax_lub.
    + cbn [vx]. unfold field_3d. cbn [vx]. apply (Slope (cos phi) (sin phi)); [lra|]. intros q Oq. rewrite (proj1 (polar_turned q phi)). rewrite Pp. unfold dx1_potential_3d_point. cbn [vx]. apply Pos.
    + cbn [vy]. unfold field_3d. cbn [vy]. apply (Slope (sin phi) (- cos phi)); [lra|]. intros q Oq. rewrite (proj2 (polar_turned q phi)). rewrite Pp. unfold dy1_potential_3d_point. cbn [vy]. apply Pos.
  - unfold field_3d. cbn [vz]. set (a := fun nu m => Derive (fun z => axial_coefficient false z c nu m) z). set (b := fun nu m => Derive (fun z => axial_coefficient true z c nu m) z).
    replace (- sum_nu_m (potential3d_term A' B' r phi) - - evaluate (dz1_potential_3d_point p) c) with
      (- ((sum_nu_m (potential3d_term a b r phi) - evaluate (dz1_potential_3d_point p) c) + sum_nu_m (fun nu m => potential3d_term A' B' r phi nu m - potential3d_term a b r phi nu m))).
    2: { enough (Es : sum_nu_m (potential3d_term A' B' r phi) = sum_nu_m (fun nu m => (potential3d_term A' B' r phi nu m - potential3d_term a b r phi nu m) + potential3d_term a b r phi nu m)) by (rewrite Es, sum_nu_m_plus; ring).
      apply sum_nu_m_ext. intros; ring. }
    rewrite Rabs_Ropp. eapply Rle_trans; [apply Rabs_triang|]. apply Rplus_le_compat.
    + unfold a, b. rewrite lifts_of_charges by exact Off. rewrite Props_RadialSeries.evaluate_minus. apply evaluate_abs. intros x Hx jp Hjp.
      replace (dz1_potential_3d_point p (snd jp)) with (1 / (4 * PI) * ((vz (snd jp) - z) / sqrt (RadialSeriesFacts.len2 (dist_axis (snd jp) z) (along (snd jp) phi) r) ^ 3)).
      * apply point_lift_error; [exact (Off x jp Hx Hjp)|]. split; [exact Hr|exact (Near x jp Hx Hjp)].
      * rewrite Pp. unfold dz1_potential_3d_point. rewrite point_distance. cbn [vz]. unfold Rdiv. rewrite (Rinv_mult (4 * PI)). ring.
    + apply sum_nu_m_abs. intros nu m Hn Hm. apply term_perturbed; [exact Hr|apply (Rep false nu m Hn Hm)|apply (Rep true nu m Hn Hm)].
Qed.
Print Assumptions C90_series.

(** A table made of splines through the coefficients of the charges reproduces them at its samples. *)
Theorem C90_samples z0 h N coeff j row c p : 0 < h -> (2 <= N)%nat -> length coeff = (N - 1)%nat ->
  (S j < N)%nat -> vz p = z0 + INR j * h -> nth_error coeff j = Some row ->
  (forall sine nu m, (nu < 4)%nat -> (m < 8)%nat -> exists c0 c1, row sine nu m = (c0, c1, Derive (fun z => axial_coefficient sine z c nu m) (vz p), axial_coefficient sine (vz p) c nu m)) ->
  let r := norm_2d (vx p) (vy p) in
  away_from_axis c -> nearer_than_charges r (vz p) c -> on_or_off_axis p ->
  exists V E, potential_3d_derivs p (samples z0 h N) coeff = Ok V /\ field_3d_derivs p (samples z0 h N) coeff = Ok E /\
    Rabs (V - potential_3d p c) <= weight (series3d_error (vz p) r) c /\
    Rabs (vx E - vx (field_3d p c)) <= weight (slope3d_error (vz p) r) c /\ Rabs (vy E - vy (field_3d p c)) <= weight (slope3d_error (vz p) r) c /\
    Rabs (vz E - vz (field_3d p c)) <= weight (lift3d_error (vz p) r) c.
Proof.
  intros Hh HN Hl Hj Hz Hrow HR r Off Near OO.
  destruct (C90_series z0 h N coeff j row c p (fun _ _ => 0) (fun _ _ => 0) Hh HN Hl Hj) as (V & E & HV & HE & B1 & B2 & B3); try assumption.
  - rewrite Hz. lra.
  - intros sine nu m Hn Hm. destruct (HR sine nu m Hn Hm) as (c0 & c1 & ->). replace (vz p - (z0 + INR j * h)) with 0 by lra. unfold cubic_at, cubic_diff. set (a := axial_coefficient sine (vz p) c nu m). set (b := Derive _ _).
    replace (0 ^ 3 * c0 + 0 ^ 2 * c1 + 0 * b + a - a) with 0 by ring. replace (3 * 0 ^ 2 * c0 + 2 * 0 * c1 + b - b) with 0 by ring. rewrite Rabs_R0. lra.
  - assert (Z1 : forall f : nat -> nat -> R, sum_nu_m (fun nu m => 2 * 0 * f nu m) = 0) by (intros f; rewrite (sum_nu_m_ext _ (fun _ _ => 0)) by (intros; ring); rewrite sum_nu_m_const; ring).
    assert (Z2 : sum_nu_m (fun nu m => 2 * 0 * INR (2 * nu + m) * norm_2d (vx p) (vy p) ^ (2 * nu + m - 1)) = 0) by (rewrite (sum_nu_m_ext _ (fun _ _ => 0)) by (intros; ring); rewrite sum_nu_m_const; ring).
    rewrite (Z1 (fun nu m => norm_2d (vx p) (vy p) ^ (2 * nu + m))), Rplus_0_r in B1, B3. rewrite Z2, Rplus_0_r in B2.
    exists V, E. split; [exact HV|]. split; [exact HE|]. split; [exact B1|]. split; [|split; [|exact B3]].
    + eapply Rle_trans; [apply Rmax_l|exact B2].
    + eapply Rle_trans; [apply Rmax_r|exact B2].
Qed.
Print Assumptions C90_samples.
(** the coefficients do have the derivatives used above *)
Theorem C90_coefficients_differentiable c sine nu m z : away_from_axis c -> (nu < 4)%nat -> (m < 8)%nat -> ex_derive (fun z => axial_coefficient sine z c nu m) z.
Proof. intros Off Hn Hm. eexists. apply coefficient_derive; assumption. Qed.
Print Assumptions C90_coefficients_differentiable.

(** Three samples, two charges, and a point at a fifth of their distance. *)
Example C90_nonvacuous : let c := mkcharges TRIANGLE_RULE [(3, [(1, V3 5 0 0); (2, V3 0 6 1)])] in let p := V3 1 0 1 in
  exists coeff row, length coeff = 2%nat /\ nth_error coeff 1 = Some row /\
    (forall sine nu m, (nu < 4)%nat -> (m < 8)%nat -> exists c0 c1, row sine nu m = (c0, c1, Derive (fun z => axial_coefficient sine z c nu m) (vz p), axial_coefficient sine (vz p) c nu m)) /\
    away_from_axis c /\ nearer_than_charges (norm_2d (vx p) (vy p)) (vz p) c /\ on_or_off_axis p /\ vz p = 0 + INR 1 * 1 /\
    exists V, potential_3d_derivs p (samples 0 1 3) coeff = Ok V /\ Rabs (V - potential_3d p c) <= weight (series3d_error (vz p) (norm_2d (vx p) (vy p))) c.
Proof.
  intros c p. set (row := fun sine nu m => (0, 0, Derive (fun z => axial_coefficient sine z c nu m) (vz p), axial_coefficient sine (vz p) c nu m)). exists [row; row], row.
  assert (N1 : norm_2d (vx p) (vy p) = 1) by (unfold norm_2d, p; cbn [vx vy]; replace (1 * 1 + 0 * 0) with 1 by ring; apply sqrt_1).
  assert (R : forall sine nu m, (nu < 4)%nat -> (m < 8)%nat -> exists c0 c1, row sine nu m = (c0, c1, Derive (fun z => axial_coefficient sine z c nu m) (vz p), axial_coefficient sine (vz p) c nu m)) by (intros sine nu m _ _; exists 0, 0; reflexivity).
  assert (Off : away_from_axis c) by (intros x jp [<-|[]] [<-|[<-|[]]]; cbn; [left|right]; lra).
  assert (Near : nearer_than_charges (norm_2d (vx p) (vy p)) (vz p) c).
  { rewrite N1. intros x jp [<-|[]] [<-|[<-|[]]]; unfold dist_axis; cbn [snd vx vy vz p]; rewrite <- sqrt_1 at 1; apply sqrt_lt_1_alt; lra. }
  assert (OO : on_or_off_axis p) by (right; rewrite N1; lra). assert (Z : vz p = 0 + INR 1 * 1) by (cbn; ring).
  split; [reflexivity|]. split; [reflexivity|]. split; [exact R|]. split; [exact Off|]. split; [exact Near|]. split; [exact OO|]. split; [exact Z|].
  destruct (C90_samples 0 1 3 [row; row] 1 row c p ltac:(lra) ltac:(lia) eq_refl ltac:(lia) Z eq_refl R Off Near OO) as (V & E & HV & _ & B & _). exists V. split; [exact HV|exact B].
Qed.
