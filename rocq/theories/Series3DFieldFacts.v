(** Truncation of the three-dimensional series of the field around the axis. *)
From Coq Require Import Reals ZArith Lra Lia Psatz.
From Coquelicot Require Import Coquelicot.
From Verif Require Import Base BaseFacts Vec GeomModel PathModel PathOpsFacts OutwardFacts FieldModel SeriesModel SeriesFacts InterpFacts Field3DFacts Axial3DModel Axial3DFacts HarmonicFacts AxialTable.
From Verif Require Import AxialErrorFacts.
From Verif Require LegendreFacts RadialSeriesFacts GegenbauerFacts.
From Verif Require Import Props_Expansion Series3DFacts.
Local Open Scope R_scope.

(** ** The derivative of the Legendre polynomials *)
Definition gegen (n : nat) (x : R) : R := GegenbauerFacts.geg n x (sqrt (1 - x ^ 2)).
Definition dlegendre (n : nat) (x : R) : R := match n with O => 0 | S k => gegen k x end.
Lemma gegen_SS n x : Rabs x <= 1 -> gegen (S (S n)) x = gegen n x + (2 * INR (S (S n)) + 1) * legendre (S (S n)) x.
Proof. intros Hx. unfold gegen. rewrite GegenbauerFacts.geg_SS, legendre_leg by exact Hx. reflexivity. Qed.
Lemma gegen_mult n x : Rabs x <= 1 -> x * gegen (S n) x = gegen n x + INR (S (S n)) * legendre (S (S n)) x.
Proof. intros Hx. unfold gegen. rewrite legendre_leg by exact Hx. apply GegenbauerFacts.geg_mult, RadialSeriesFacts.cos_sin_unit, Hx. Qed.
Lemma legendre_0 x : legendre 0 x = 1. Proof. reflexivity. Qed.
Lemma legendre_1 x : legendre 1 x = x. Proof. reflexivity. Qed.
Lemma legendre_derive n (x : R) : Rabs x <= 1 -> is_derive (legendre n) x (dlegendre n x).
Proof.
  intros Hx. revert n. apply GegenbauerFacts.pair_ind.
  - apply (is_derive_ext (fun _ => 1)); [intros; reflexivity|]. apply (is_derive_const (V := R_NormedModule)).
  - apply (is_derive_ext (fun t => t)); [intros; reflexivity|]. apply (@is_derive_id R_AbsRing).
  - intros n I1 I2.
    apply (is_derive_ext (fun t => (2 * INR (S n) + 1) / INR (S (S n)) * (t * legendre (S n) t) - INR (S n) / INR (S (S n)) * legendre n t)).
    { intros t. rewrite legendre_SS. req. field. apply not_0_INR. lia. }
    pose proof (is_derive_mult (fun t => t) (legendre (S n)) x _ _ (@is_derive_id R_AbsRing x) I2 Rmult_comm) as D1.
    pose proof (is_derive_minus _ _ x _ _ (is_derive_scal _ x ((2 * INR (S n) + 1) / INR (S (S n))) _ D1) (is_derive_scal _ x (INR (S n) / INR (S (S n))) _ I1)) as D2.
    eapply is_derive_eq; [exact D2|]. req. unfold minus, plus, opp, mult, one. cbn -[INR].
    assert (K : INR (S (S n)) <> 0) by (apply not_0_INR; lia). cbn [dlegendre]. destruct n as [|n].
    + cbn [dlegendre]. unfold gegen. rewrite GegenbauerFacts.geg_1, GegenbauerFacts.geg_0, legendre_1. cbn [INR]. field.
    + cbn [dlegendre]. rewrite gegen_SS by exact Hx. pose proof (gegen_mult n x Hx) as M.
      replace ((2 * INR (S (S n)) + 1) / INR (S (S (S n))) * (1 * legendre (S (S n)) x + x * gegen (S n) x) + - (INR (S (S n)) / INR (S (S (S n))) * gegen n x))
        with ((2 * INR (S (S n)) + 1) / INR (S (S (S n))) * legendre (S (S n)) x + (2 * INR (S (S n)) + 1) / INR (S (S (S n))) * (x * gegen (S n) x) + - (INR (S (S n)) / INR (S (S (S n))) * gegen n x)) by ring.
      rewrite M. rewrite (S_INR (S (S n))) in *. set (k := INR (S (S n))) in *. clearbody k. field. exact K.
Qed.
Fixpoint dsum (b : nat -> R) (t : R) (N : nat) : R := match N with O => 0 | S k => dsum b t k + INR k * b k * sin (INR k * t) end.
Lemma fsum_derive b N (t : R) : is_derive (fun t => fsum b t N) t (- dsum b t N).
Proof.
  induction N as [|N IH]; cbn [fsum dsum].
  - rewrite Ropp_0. apply (is_derive_const (V := R_NormedModule)).
  - eapply is_derive_eq; [apply (is_derive_plus (fun t => fsum b t N) (fun t => b N * cos (INR N * t))); [exact IH|]|].
    + instantiate (1 := - (INR N * b N * sin (INR N * t))). auto_derive; [exact I|ring].
    + req. unfold plus. cbn. ring.
Qed.
Lemma dsum_legendre n s t : 0 <= s <= 1 -> dsum (fun m => H n m s) t (S n) = s * sin t * dlegendre n (s * cos t).
Proof.
  intros Hs. pose proof (fsum_derive (fun m => H n m s) (S n) t) as D1.
  assert (B : Rabs (s * cos t) <= 1).
  { rewrite Rabs_mult, (Rabs_pos_eq s) by lra. assert (Rabs (cos t) <= 1) by (apply Rabs_le, COS_bound). pose proof (Rabs_pos (cos t)). nra. }
  assert (D2 : is_derive (fun t => fsum (fun m => H n m s) t (S n)) t (- (s * sin t * dlegendre n (s * cos t)))).
  { apply (is_derive_ext (fun t => legendre n (s * cos t))); [intros u; apply legendre_cos|].
    eapply is_derive_eq; [apply (is_derive_comp (legendre n) (fun t => s * cos t) t (dlegendre n (s * cos t)) (- (s * sin t))); [apply legendre_derive; exact B|auto_derive; [exact I|ring]]|].
    req. unfold scal. cbn. unfold mult. cbn. ring. }
  apply is_derive_unique in D1, D2. rewrite D1 in D2. lra.
Qed.

(** ** One charge *)
(** term (nu, m) of the slope of the series of a unit charge in the direction with components a along the radius and -b along the angle *)
Definition slope_term (s t x a b : R) (nu m : nat) : R :=
  H (2 * nu + m) m s * (INR (2 * nu + m) * cos (INR m * t) * a + INR m * sin (INR m * t) * b) * x ^ (2 * nu + m - 1).
Lemma slope_term_bound s t x a b nu m : 0 <= s <= 1 -> 0 <= x -> a ^ 2 + b ^ 2 = 1 -> Rabs (slope_term s t x a b nu m) <= 2 * INR (2 * nu + m) * x ^ (2 * nu + m - 1).
Proof.
  intros Hs Hx U. unfold slope_term. pose proof (pow_le x (2 * nu + m - 1) Hx) as P. rewrite !Rabs_mult, (Rabs_pos_eq (x ^ _)) by exact P.
  apply Rmult_le_compat_r; [exact P|]. pose proof (H_bound (2 * nu + m) m s Hs) as B1. pose proof (Rabs_pos (H (2 * nu + m) m s)) as B2.
  assert (B3 : Rabs (INR (2 * nu + m) * cos (INR m * t) * a + INR m * sin (INR m * t) * b) <= INR (2 * nu + m)).
  { eapply Rle_trans; [apply Rabs_triang|]. rewrite !Rabs_mult, !(Rabs_pos_eq (INR _)) by apply pos_INR.
    assert (Lm : INR m <= INR (2 * nu + m)) by (apply le_INR; lia). pose proof (pos_INR m) as Pm.
    set (u := cos (INR m * t)) in *. set (v := sin (INR m * t)) in *. pose proof (sin2_cos2 (INR m * t)) as T. fold u v in T. unfold Rsqr in T.
    pose proof (Rabs_pos u). pose proof (Rabs_pos v). pose proof (Rabs_pos a). pose proof (Rabs_pos b).
    assert (Rabs u * Rabs u = u * u) by (rewrite <- Rabs_mult; apply Rabs_pos_eq, Rle_0_sqr). assert (Rabs v * Rabs v = v * v) by (rewrite <- Rabs_mult; apply Rabs_pos_eq, Rle_0_sqr).
    assert (Rabs a * Rabs a = a * a) by (rewrite <- Rabs_mult; apply Rabs_pos_eq, Rle_0_sqr). assert (Rabs b * Rabs b = b * b) by (rewrite <- Rabs_mult; apply Rabs_pos_eq, Rle_0_sqr).
    assert (Q : Rabs u * Rabs a + Rabs v * Rabs b <= 1) by (pose proof (Rle_0_sqr (Rabs u - Rabs a)) as S1; pose proof (Rle_0_sqr (Rabs v - Rabs b)) as S2; unfold Rsqr in S1, S2; lra). assert (Rabs v * Rabs b * INR m <= Rabs v * Rabs b * INR (2 * nu + m)) by (apply Rmult_le_compat_l; [apply Rmult_le_pos; assumption|exact Lm]).
    apply Rle_trans with (INR (2 * nu + m) * (Rabs u * Rabs a + Rabs v * Rabs b)); [lra|]. pose proof (pos_INR (2 * nu + m)). nra. }
  pose proof (Rabs_pos (INR (2 * nu + m) * cos (INR m * t) * a + INR m * sin (INR m * t) * b)) as B4. nra.
Qed.
Lemma slope_terms s t x a b :
  sum_nu_m (fun nu m => if beyond nu m then 0 else slope_term s t x a b nu m) =
  RadialSeriesFacts.expansion' (fun n => legendre n (s * cos t)) 8 x * a + RadialSeriesFacts.expansion (fun n => dsum (fun m => H (S n) m s) t (S (S n))) 7 x * b.
Proof.
  unfold RadialSeriesFacts.expansion, RadialSeriesFacts.expansion'. rewrite !legendre_cos. unfold sum_nu_m, arange, NU_MAX, M_MAX, beyond, slope_term.
  cbn [seq map Rsum fsum dsum Nat.leb Nat.mul Nat.add Nat.sub pred].
  rewrite (H_parity 1 0), (H_parity 2 1), (H_parity 3 0), (H_parity 3 2), (H_parity 4 1), (H_parity 4 3), (H_parity 5 0), (H_parity 5 2), (H_parity 5 4), (H_parity 6 1), (H_parity 6 3), (H_parity 6 5), (H_parity 7 0), (H_parity 7 2), (H_parity 7 4), (H_parity 7 6) by reflexivity.
  change (INR 0) with 0. ring.
Qed.
(** the terms up to degree seven, in closed form *)
Lemma expansion_ext c c' N x : (forall n, (n < N)%nat -> c n = c' n) -> RadialSeriesFacts.expansion c N x = RadialSeriesFacts.expansion c' N x.
Proof. induction N as [|N IH]; intros E; cbn; [reflexivity|]. rewrite IH by (intros; apply E; lia). rewrite E by lia. reflexivity. Qed.
Lemma slope_closed s t x a b : 0 <= s <= 1 ->
  RadialSeriesFacts.expansion' (fun n => legendre n (s * cos t)) 8 x * a + RadialSeriesFacts.expansion (fun n => dsum (fun m => H (S n) m s) t (S (S n))) 7 x * b =
  RadialSeriesFacts.expansion (fun n => gegen n (s * cos t)) 7 x * (s * cos t * a + s * sin t * b) - x * RadialSeriesFacts.expansion (fun n => gegen n (s * cos t)) 6 x * a.
Proof.
  intros Hs. assert (B : Rabs (s * cos t) <= 1).
  { rewrite Rabs_mult, (Rabs_pos_eq s) by lra. assert (Rabs (cos t) <= 1) by (apply Rabs_le, COS_bound). pose proof (Rabs_pos (cos t)). nra. }
  rewrite (expansion_ext (fun n => dsum (fun m => H (S n) m s) t (S (S n))) (fun n => s * sin t * gegen n (s * cos t))) by (intros n _; apply (dsum_legendre (S n)); exact Hs).
  set (c := s * cos t) in *. set (w := s * sin t). clearbody w.
  assert (M : forall n, INR (S (S n)) * legendre (S (S n)) c = c * gegen (S n) c - gegen n c) by (intros n; rewrite gegen_mult by exact B; ring).
  unfold RadialSeriesFacts.expansion, RadialSeriesFacts.expansion'. cbn [pred].
  pose proof (M 0%nat) as M0. pose proof (M 1%nat) as M1. pose proof (M 2%nat) as M2. pose proof (M 3%nat) as M3. pose proof (M 4%nat) as M4. pose proof (M 5%nat) as M5.
  assert (G0 : gegen 0 c = 1) by reflexivity. rewrite legendre_1, legendre_0.
  transitivity ((0 + 1 * (INR 0 * x ^ 0) + c * (1 * x ^ 0) + (INR 2 * legendre 2 c) * x ^ 1 + (INR 3 * legendre 3 c) * x ^ 2 + (INR 4 * legendre 4 c) * x ^ 3 + (INR 5 * legendre 5 c) * x ^ 4 + (INR 6 * legendre 6 c) * x ^ 5 + (INR 7 * legendre 7 c) * x ^ 6) * a +
    (0 + w * gegen 0 c * x ^ 0 + w * gegen 1 c * x ^ 1 + w * gegen 2 c * x ^ 2 + w * gegen 3 c * x ^ 3 + w * gegen 4 c * x ^ 4 + w * gegen 5 c * x ^ 5 + w * gegen 6 c * x ^ 6) * b).
  { change (INR 1) with 1. ring. }
  rewrite M0, M1, M2, M3, M4, M5, G0. change (INR 0) with 0. ring.
Qed.
Lemma extra_slopes s t x a b : 0 <= s <= 1 -> 0 <= x <= 1 -> a ^ 2 + b ^ 2 = 1 ->
  Rabs (sum_nu_m (slope_term s t x a b) - sum_nu_m (fun nu m => if beyond nu m then 0 else slope_term s t x a b nu m)) <= 236 * x ^ 7.
Proof.
  intros Hs Hx U.
  replace (sum_nu_m (slope_term s t x a b) - sum_nu_m (fun nu m => if beyond nu m then 0 else slope_term s t x a b nu m)) with
    (sum_nu_m (fun nu m => if beyond nu m then slope_term s t x a b nu m else 0)).
  - apply Rle_trans with (sum_nu_m (fun nu m => if beyond nu m then 2 * INR (2 * nu + m) * x ^ 7 else 0)).
    + apply sum_nu_m_abs. intros nu m _ _. unfold beyond. destruct (Nat.leb_spec 8 (2 * nu + m)) as [L|L]; [|rewrite Rabs_R0; lra].
      eapply Rle_trans; [apply slope_term_bound; [exact Hs|lra|exact U]|]. apply Rmult_le_compat_l; [pose proof (pos_INR (2 * nu + m)); lra|].
      replace (2 * nu + m - 1)%nat with (7 + (2 * nu + m - 8))%nat by lia. rewrite pow_add. pose proof (pow_le x 7 (proj1 Hx)). pose proof (pow_le_1 x (2 * nu + m - 8) Hx). nra.
    + unfold sum_nu_m, arange, NU_MAX, M_MAX, beyond. cbn [seq map Rsum Nat.leb Nat.mul Nat.add]. rewrite !INR_IZR_INZ. cbn [Z.of_nat Pos.of_succ_nat Pos.succ]. lra.
  - enough (E : sum_nu_m (slope_term s t x a b) = sum_nu_m (fun nu m => (if beyond nu m then slope_term s t x a b nu m else 0) + (if beyond nu m then 0 else slope_term s t x a b nu m))) by (rewrite E, sum_nu_m_plus; ring).
    apply sum_nu_m_ext. intros nu m. destruct (beyond nu m); ring.
Qed.
Lemma rounded_slopes s t x a b : 0 <= s <= 1 -> 0 <= x <= 1 -> a ^ 2 + b ^ 2 = 1 ->
  Rabs (sum_nu_m (fun nu m => rounding nu m * slope_term s t x a b nu m) - sum_nu_m (slope_term s t x a b)) <= 416e-15.
Proof.
  intros Hs Hx U.
  replace (sum_nu_m (fun nu m => rounding nu m * slope_term s t x a b nu m) - sum_nu_m (slope_term s t x a b)) with (sum_nu_m (fun nu m => (rounding nu m - 1) * slope_term s t x a b nu m)).
  - apply Rle_trans with (sum_nu_m (fun nu m => 1e-15 * (2 * INR (2 * nu + m)))).
    + apply sum_nu_m_abs. intros nu m Hn Hm. rewrite Rabs_mult. pose proof (factorial_value nu m Hn Hm) as F. fold (rounding nu m) in F.
      apply Rmult_le_compat; [apply Rabs_pos|apply Rabs_pos|exact F|]. eapply Rle_trans; [apply slope_term_bound; [exact Hs|lra|exact U]|].
      pose proof (pow_le_1 x (2 * nu + m - 1) Hx). pose proof (pos_INR (2 * nu + m)). nra.
    + unfold sum_nu_m, arange, NU_MAX, M_MAX, beyond. cbn [seq map Rsum Nat.leb Nat.mul Nat.add]. rewrite !INR_IZR_INZ. cbn [Z.of_nat Pos.of_succ_nat Pos.succ]. lra.
  - assert (Es : sum_nu_m (fun nu m => rounding nu m * slope_term s t x a b nu m) = sum_nu_m (fun nu m => (rounding nu m - 1) * slope_term s t x a b nu m + slope_term s t x a b nu m)) by (apply sum_nu_m_ext; intros; ring).
    rewrite Es, sum_nu_m_plus. ring.
Qed.
Lemma point_expansion3 q z phi r N : vx q <> 0 \/ vy q <> 0 ->
  RadialSeriesFacts.expansion (GegenbauerFacts.coef3 (dist_axis q z) (along q phi)) N r =
  / dist_axis q z ^ 3 * RadialSeriesFacts.expansion (fun n => gegen n (slope q z * cos (phi - atan2 (vy q) (vx q)))) N (r / dist_axis q z).
Proof.
  intros O. pose proof (dist_axis_pos q z O) as PD.
  assert (E : forall n, GegenbauerFacts.coef3 (dist_axis q z) (along q phi) n * r ^ n = / dist_axis q z ^ 3 * (gegen n (slope q z * cos (phi - atan2 (vy q) (vx q))) * (r / dist_axis q z) ^ n)).
  { intros n. unfold GegenbauerFacts.coef3, gegen. rewrite along_polar by exact O. generalize (GegenbauerFacts.geg n (slope q z * cos (phi - atan2 (vy q) (vx q))) (sqrt (1 - (slope q z * cos (phi - atan2 (vy q) (vx q))) ^ 2))). intros v. unfold Rdiv. rewrite Rpow_mult_distr, pow_inv, pow_add. field. repeat split; try lra; apply pow_nonzero; lra. }
  induction N as [|n IH]; cbn [RadialSeriesFacts.expansion]; [ring|]. rewrite IH, E. ring.
Qed.
Definition point_slope (z r phi a b : R) (q : vec3) : R :=
  1 / (4 * PI) / dist_axis q z ^ 2 * sum_nu_m (fun nu m => rounding nu m * slope_term (slope q z) (phi - atan2 (vy q) (vx q)) (r / dist_axis q z) a b nu m).
(** error of each transverse component of the field of a unit charge *)
Definition slope3d_error (z r : R) (q : vec3) : R :=
  let D := dist_axis q z in
  1 / (4 * PI) * ((r / D) ^ 7 * (64 * D * ((D + r) / D) ^ 2 / (D - r) ^ 3 + 236 / D ^ 2) + 416e-15 / D ^ 2).
Lemma point_slope_error z r phi a b q : vx q <> 0 \/ vy q <> 0 -> 0 <= r < dist_axis q z -> a ^ 2 + b ^ 2 = 1 ->
  let t := phi - atan2 (vy q) (vx q) in
  Rabs (point_slope z r phi a b q - 1 / (4 * PI) * ((rho q * (cos t * a + sin t * b) - r * a) / sqrt (RadialSeriesFacts.len2 (dist_axis q z) (along q phi) r) ^ 3)) <= slope3d_error z r q.
Proof.
  intros O Hr U t. pose proof (dist_axis_pos q z O) as PD. pose proof PI_RGT_0 as PP. pose proof (along_bound q z phi O) as AB. pose proof (slope_bounds q z O) as PS.
  unfold point_slope, slope3d_error. cbv zeta. fold t.
  assert (RS : rho q = dist_axis q z * slope q z) by (unfold slope; field; lra). rewrite RS.
  pose proof (fun N => point_expansion3 q z phi r N O) as EX. fold t in EX.
  set (D := dist_axis q z) in *. set (y := along q phi) in *. set (s := slope q z) in *.
  assert (X : 0 <= r / D <= 1).
  { split; [apply Rmult_le_pos; [lra|apply Rlt_le, Rinv_0_lt_compat; exact PD]|]. apply (Rmult_le_reg_r D); [exact PD|]. unfold Rdiv. rewrite Rmult_assoc, Rinv_l by lra. lra. }
  assert (RX : r = r / D * D) by (field; lra). set (x := r / D) in *.
  pose proof (GegenbauerFacts.expansion3_error D y 6 r PD AB Hr) as E7. pose proof (GegenbauerFacts.expansion3_error D y 5 r PD AB Hr) as E6. fold x in E7, E6.
  rewrite !INR_IZR_INZ in E7, E6. cbn [Z.of_nat Pos.of_succ_nat Pos.succ] in E7, E6. rewrite EX in E7, E6.
  replace (8 * 9 / 2) with 36 in E7 by lra. replace (7 * 8 / 2) with 28 in E6 by lra.
  pose proof (extra_slopes s t x a b PS X U) as EE. pose proof (rounded_slopes s t x a b PS X U) as ER. rewrite (slope_terms s t x a b), (slope_closed s t x a b PS) in EE.
  set (S7 := RadialSeriesFacts.expansion (fun n => gegen n (s * cos t)) 7 x) in *. set (S6 := RadialSeriesFacts.expansion (fun n => gegen n (s * cos t)) 6 x) in *.
  set (P := sum_nu_m (fun nu m => rounding nu m * slope_term s t x a b nu m)) in *. set (Q := sum_nu_m (slope_term s t x a b)) in *.
  set (W := sqrt (RadialSeriesFacts.len2 D y r)) in *. set (g := cos t * a + sin t * b).
  assert (Hg : Rabs (s * g) <= 1).
  { unfold g. rewrite Rabs_mult, (Rabs_pos_eq s) by lra. assert (Rabs (cos t * a + sin t * b) <= 1); [|pose proof (Rabs_pos (cos t * a + sin t * b)); nra].
    pose proof (sin2_cos2 t) as T. unfold Rsqr in T. pose proof (Rle_0_sqr (cos t - a)) as Q1. pose proof (Rle_0_sqr (sin t - b)) as Q2. pose proof (Rle_0_sqr (cos t + a)) as Q3. pose proof (Rle_0_sqr (sin t + b)) as Q4. unfold Rsqr in *.
    apply Rabs_le. split; lra. }
  assert (Ha : Rabs a <= 1) by (apply Rabs_le; pose proof (Rle_0_sqr b) as Q1; unfold Rsqr in Q1; split; nra).
  replace (s * cos t * a + s * sin t * b) with (s * g) in EE by (unfold g; ring).
  assert (PI4 : 0 < 1 / (4 * PI)) by (apply Rdiv_lt_0_compat; lra). assert (PiD : 0 < / D) by (apply Rinv_0_lt_compat; exact PD).
  assert (HW : 0 < W) by (apply sqrt_lt_R0, RadialSeriesFacts.len2_pos; lra).
  replace (1 / (4 * PI) / D ^ 2 * P - 1 / (4 * PI) * ((D * s * g - r * a) / W ^ 3)) with
    (1 / (4 * PI) * (/ D ^ 2 * (P - Q) + / D ^ 2 * (Q - (S7 * (s * g) - x * S6 * a)) + - (D * (s * g) * (/ W ^ 3 - / D ^ 3 * S7)) + r * a * (/ W ^ 3 - / D ^ 3 * S6))).
  2: { assert (RX' : r * / D ^ 3 = x * / D ^ 2) by (rewrite RX at 1; field; lra). assert (RD : D * / D ^ 3 = / D ^ 2) by (field; lra). revert RX' RD. unfold Rdiv.
    generalize (/ D ^ 3) (/ D ^ 2) (/ W ^ 3) (/ (4 * PI)). clear. intros d3 d2 k c RX' RD.
    transitivity (1 * c * (d2 * P - (D * s * g - r * a) * k + (x * d2 - r * d3) * S6 * a + (D * d3 - d2) * S7 * (s * g))); [ring|]. rewrite RX', RD. ring. }
  rewrite Rabs_mult, (Rabs_pos_eq (1 / (4 * PI))) by lra. apply Rmult_le_compat_l; [lra|].
  assert (PiD2 : 0 < / D ^ 2) by (apply Rinv_0_lt_compat, pow_lt; exact PD).
  set (e7 := 36 * x ^ 7 * ((D + r) / D) ^ 2 / (D - r) ^ 3). set (e6 := 28 * x ^ 6 * ((D + r) / D) ^ 2 / (D - r) ^ 3).
  assert (F7 : Rabs (/ W ^ 3 - / D ^ 3 * S7) <= e7) by (eapply Rle_trans; [exact E7|right; unfold e7, Rdiv; ring]).
  assert (F6 : Rabs (/ W ^ 3 - / D ^ 3 * S6) <= e6) by (eapply Rle_trans; [exact E6|right; unfold e6, Rdiv; ring]).
  assert (G7 : Rabs (- (D * (s * g) * (/ W ^ 3 - / D ^ 3 * S7))) <= D * e7).
  { rewrite Rabs_Ropp, !(Rabs_mult (D * (s * g))), (Rabs_mult D), (Rabs_pos_eq D) by lra. pose proof (Rabs_pos (/ W ^ 3 - / D ^ 3 * S7)). pose proof (Rabs_pos (s * g)).
    apply Rmult_le_compat; [apply Rmult_le_pos; lra|assumption|nra|exact F7]. }
  assert (G6 : Rabs (r * a * (/ W ^ 3 - / D ^ 3 * S6)) <= r * e6).
  { rewrite (Rabs_mult (r * a)), (Rabs_mult r), (Rabs_pos_eq r) by lra. pose proof (Rabs_pos (/ W ^ 3 - / D ^ 3 * S6)). pose proof (Rabs_pos a).
    apply Rmult_le_compat; [apply Rmult_le_pos; lra|assumption|nra|exact F6]. }
  assert (GE : Rabs (/ D ^ 2 * (Q - (S7 * (s * g) - x * S6 * a))) <= / D ^ 2 * (236 * x ^ 7)) by (rewrite Rabs_mult, (Rabs_pos_eq (/ D ^ 2)) by lra; apply Rmult_le_compat_l; lra).
  revert ER. generalize 416e-15. intros e ER.
  assert (GR : Rabs (/ D ^ 2 * (P - Q)) <= / D ^ 2 * e) by (rewrite Rabs_mult, (Rabs_pos_eq (/ D ^ 2)) by lra; apply Rmult_le_compat_l; lra).
  apply Rle_trans with (/ D ^ 2 * e + / D ^ 2 * (236 * x ^ 7) + D * e7 + r * e6).
  - eapply Rle_trans; [apply Rabs_triang|]. apply Rplus_le_compat; [|exact G6]. eapply Rle_trans; [apply Rabs_triang|]. apply Rplus_le_compat; [|exact G7].
    eapply Rle_trans; [apply Rabs_triang|]. apply Rplus_le_compat; assumption.
  - right. unfold e7, e6, Rdiv. transitivity (/ D ^ 2 * e + / D ^ 2 * (236 * x ^ 7) + D * (36 * x ^ 7 * ((D + r) * / D) ^ 2 * / (D - r) ^ 3) + (x * D) * (28 * x ^ 6 * ((D + r) * / D) ^ 2 * / (D - r) ^ 3)); [|ring].
    f_equal. f_equal. exact RX.
Qed.
