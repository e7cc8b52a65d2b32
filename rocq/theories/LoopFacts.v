(** Charged rings as circles of point charges and current loops by the law of Biot and Savart. *)
From Coq Require Import Reals Lra Lia Psatz.
From Coquelicot Require Import Coquelicot.
From Verif Require Import Base BaseFacts Vec GeomModel OutwardFacts FieldModel FieldFacts SeriesModel SeriesFacts Field3DFacts EllipticSpec EllipticFacts RingModel RingFacts.
Local Open Scope R_scope.

(** The point at angle [phi] of the circle around the z axis of radius [r] at height [z], and its derivative in [phi]. *)
Definition circle (r z phi : R) : vec3 := V3 (r * cos phi) (r * sin phi) z.
Definition circle' (r phi : R) : vec3 := V3 (- r * sin phi) (r * cos phi) 0.
(** Biot-Savart: the magnetic field (in units of the current) of a loop, 1/(4 pi) times the integral of dl x d / |d|^3
    with d the vector from the loop to the point. *)
Definition biot_savart (p : vec3) (a y phi : R) : vec3 :=
  vscale (1 / (4 * PI * norm (vsub p (circle a y phi)) ^ 3)) (cross (circle' a phi) (vsub p (circle a y phi))).
Definition integral_turn (F : R -> vec3) : vec3 :=
  V3 (RInt (fun t => vx (F t)) 0 (2 * PI)) (RInt (fun t => vy (F t)) 0 (2 * PI)) (RInt (fun t => vz (F t)) 0 (2 * PI)).

Lemma polar x y : exists psi, x = norm_2d x y * cos psi /\ y = norm_2d x y * sin psi.
Proof.
  pose proof (norm_2d_sqr x y) as S. pose proof (norm_2d_nonneg x y) as P. set (r := norm_2d x y) in *. destruct P as [P|P].
  - assert (B : -1 <= x / r <= 1). { split; (apply (Rmult_le_reg_r r); [exact P|]); replace (x / r * r) with x by (field; lra); nra. }
    assert (Q : sqrt (1 - (x / r)²) = Rabs y / r).
    { replace (1 - (x / r)²) with ((y / r)²). rewrite sqrt_Rsqr_abs. unfold Rdiv. rewrite Rabs_mult. f_equal. apply Rabs_pos_eq. left. apply Rinv_0_lt_compat, P.
      unfold Rsqr. apply (Rmult_eq_reg_r (r ^ 2)); [|nra]. field_simplify; lra. }
    destruct (Rle_dec 0 y) as [Y|Y].
    + exists (acos (x / r)). rewrite cos_acos, sin_acos, Q, Rabs_pos_eq by lra. split; field; lra.
    + exists (- acos (x / r)). rewrite cos_neg, sin_neg, cos_acos, sin_acos, Q, Rabs_left by lra. split; field; lra.
  - exists 0. rewrite <- P in *. split; nra.
Qed.

Section circles.
  Context (x0 y0 z0 r z : R).
  Notation r0 := (norm_2d x0 y0).
  (** squared distance from the point of the ring at relative angle with cosine c *)
  Definition dist2 (c : R) : R := near2 r0 z0 r z + 2 * r * r0 * (1 - c).
  Context (Hr : 0 < r) (Off : 0 < near2 r0 z0 r z).
  Lemma dist2_pos c : c <= 1 -> 0 < dist2 c.
  Proof. intros H. pose proof (norm_2d_nonneg x0 y0). unfold dist2. assert (0 <= r * r0 * (1 - c)) by (repeat apply Rmult_le_pos; lra). lra. Qed.
  Lemma dist2_circle psi phi : x0 = r0 * cos psi -> y0 = r0 * sin psi -> norm (vsub (circle r z phi) (V3 x0 y0 z0)) = sqrt (dist2 (cos (phi - psi))).
  Proof.
    intros E1 E2. unfold norm, dot, vsub, circle, dist2, near2. cbn [vx vy vz]. f_equal. rewrite cos_minus.
    pose proof (sin2_cos2 psi) as S1. pose proof (sin2_cos2 phi) as S2. unfold Rsqr in *. set (q := norm_2d x0 y0) in *. clearbody q. rewrite E1, E2.
    replace ((r * cos phi - q * cos psi) * (r * cos phi - q * cos psi) + (r * sin phi - q * sin psi) * (r * sin phi - q * sin psi) + (z - z0) * (z - z0))
      with (r ^ 2 * (sin phi * sin phi + cos phi * cos phi) + q ^ 2 * (sin psi * sin psi + cos psi * cos psi) - 2 * r * q * (cos phi * cos psi + sin phi * sin psi) + (z - z0) ^ 2) by ring.
    rewrite S1, S2. ring.
  Qed.
  Lemma dist2_delta t : dist2 (2 * sin t ^ 2 - 1) = far2 r0 z0 r z * (1 - modulus r0 z0 r z * sin t ^ 2).
  Proof. pose proof (far2_pos r0 z0 r z (norm_2d_nonneg x0 y0) Hr). unfold dist2, modulus. transitivity (far2 r0 z0 r z - 4 * r * r0 * sin t ^ 2); [unfold near2, far2; ring|field; lra]. Qed.
  Lemma continuous_dist2 (g : R -> R) (t : R) : (forall u, 0 < u -> ex_derive g u) -> continuous (fun x => g (dist2 (cos x))) t.
  Proof.
    intros G. apply (continuous_comp (fun x => dist2 (cos x)) g).
    - apply (ex_derive_continuous (V := R_NormedModule)). unfold dist2. auto_derive. exact I.
    - apply (ex_derive_continuous (V := R_NormedModule)). apply G, dist2_pos. apply COS_bound.
  Qed.
  Let A := far2 r0 z0 r z.
  Let m := modulus r0 z0 r z.
  Lemma A_pos : 0 < A. Proof. apply far2_pos; [apply norm_2d_nonneg|exact Hr]. Qed.
  Lemma m_lt : m < 1. Proof. apply modulus_lt_1; [apply A_pos|exact Off]. Qed.
  Lemma m_nonneg : 0 <= m. Proof. unfold m, modulus. apply Rmult_le_pos; [|left; apply Rinv_0_lt_compat, A_pos]. pose proof (norm_2d_nonneg x0 y0). repeat apply Rmult_le_pos; lra. Qed.
  Lemma sqrt_dist2 t : sqrt (dist2 (2 * sin t ^ 2 - 1)) = sqrt A * sqrt (1 - m * sin t ^ 2).
  Proof. rewrite dist2_delta. apply sqrt_mult; [left; apply A_pos|left; apply delta_pos, m_lt]. Qed.

  (** The potential of a ring is the potential of its points. *)
  Theorem ring_is_circle : potential_radial_ring_of exact_km1 r0 z0 r z = RInt (fun phi => r * potential_3d_point (V3 x0 y0 z0) (circle r z phi)) 0 (2 * PI).
  Proof.
    destruct (polar x0 y0) as (psi & E1 & E2). pose proof PI_RGT_0. pose proof (sqrt_lt_R0 _ A_pos) as S.
    rewrite (RInt_eq _ (fun phi => (fun c => r / (4 * PI) * / sqrt (dist2 c)) (cos (phi - psi)))).
    2: { intros phi. unfold potential_3d_point. rewrite (dist2_circle psi phi E1 E2). req. field. split; [|lra]. apply Rgt_not_eq, sqrt_lt_R0, dist2_pos, COS_bound. }
    rewrite (full_turn (fun c => r / (4 * PI) * / sqrt (dist2 c))).
    2: { intros t. apply (continuous_dist2 (fun u => r / (4 * PI) * / sqrt u)). intros u Hu. auto_derive. repeat split; [lra|]. apply Rgt_not_eq, sqrt_lt_R0, Hu. }
    rewrite (RInt_eq _ (fun t => r / (4 * PI * sqrt A) * / sqrt (1 - m * sin t ^ 2))).
    2: { intros t. cbv beta. rewrite sqrt_dist2. pose proof (delta_sqrt_pos m t m_lt). req. field. repeat split; lra. }
    rewrite RInt_scale by (intros t; apply K_continuous, m_lt). fold (elliptic_K m). rewrite ring_potential_exact by (pose proof A_pos; unfold A in *; lra). fold A m. req. field. split; lra.
  Qed.

  (** The integrals of the law of Biot and Savart. *)
  Lemma cube_turn (u v psi : R) :
    RInt (fun phi => (u + v * cos (phi - psi)) / sqrt (dist2 (cos (phi - psi))) ^ 3) 0 (2 * PI) =
    4 / sqrt A ^ 3 * RInt (fun t => (u - v + 2 * v * sin t ^ 2) / sqrt (1 - m * sin t ^ 2) ^ 3) 0 (PI / 2).
  Proof.
    pose proof (sqrt_lt_R0 _ A_pos) as S. etransitivity; [apply (full_turn (fun c => (u + v * c) / sqrt (dist2 c) ^ 3))|].
    - intros t. apply (ex_derive_continuous (V := R_NormedModule) (fun x => (u + v * cos x) / sqrt (dist2 (cos x)) ^ 3)).
      pose proof (dist2_pos (cos t) (proj2 (COS_bound t))) as P. pose proof (sqrt_lt_R0 _ P). unfold dist2 in *. auto_derive. 
      change (1 + - cos t) with (1 - cos t) in *. repeat split; try lra. apply Rgt_not_eq. repeat apply Rmult_lt_0_compat; lra.
    - rewrite (RInt_eq _ (fun t => / sqrt A ^ 3 * ((u - v + 2 * v * sin t ^ 2) / sqrt (1 - m * sin t ^ 2) ^ 3))).
      2: { intros t. cbv beta. rewrite sqrt_dist2. pose proof (delta_sqrt_pos m t m_lt). req. field. split; lra. }
      rewrite RInt_scale. rint_gen. field. lra. intros t.
      apply (ex_derive_continuous (V := R_NormedModule) (fun t => (u - v + 2 * v * sin t ^ 2) / sqrt (1 - m * sin t ^ 2) ^ 3)).
      pose proof (delta_pos m t m_lt) as P. pose proof (delta_sqrt_pos m t m_lt) as Q. auto_derive. dnorm m t. conds.
  Qed.
  Lemma cube_value (u v : R) : 0 < m ->
    RInt (fun t => (u - v + 2 * v * sin t ^ 2) / sqrt (1 - m * sin t ^ 2) ^ 3) 0 (PI / 2) =
    (u - v + 2 * v / m) * (elliptic_E m / (1 - m)) - 2 * v / m * elliptic_K m.
  Proof.
    intros Pm. pose proof m_lt as L. rewrite <- (cube_integral m L).
    rewrite (RInt_eq _ (fun t => (u - v + 2 * v / m) * / sqrt (1 - m * sin t ^ 2) ^ 3 + - (2 * v / m) * / sqrt (1 - m * sin t ^ 2))).
    - rewrite RInt_lin by (intros t; first [apply K_continuous, L|apply cube_continuous, L]). fold (elliptic_K m). rint_gen. ring.
    - intros t. pose proof (delta_pos m t L) as P. pose proof (delta_sqrt_pos m t L) as Q. set (w := sqrt (1 - m * sin t ^ 2)) in *.
      assert (W : w ^ 2 = 1 - m * sin t ^ 2) by (unfold w; rewrite <- Rsqr_pow2, Rsqr_sqrt; lra).
      replace (sin t ^ 2) with ((1 - w ^ 2) / m) by (rewrite W; field; lra). req. field. split; lra.
  Qed.
  Lemma cube_value_0 (u v : R) : m = 0 -> RInt (fun t => (u - v + 2 * v * sin t ^ 2) / sqrt (1 - m * sin t ^ 2) ^ 3) 0 (PI / 2) = u * (PI / 2).
  Proof.
    intros E. rewrite E. rewrite (RInt_eq _ (fun t => (u - v) * 1 + 4 * v * K_integrand' 0 t)).
    - rewrite (RInt_lin (fun _ => 1) (K_integrand' 0)) by (intros t; first [apply continuous_const|apply K'_continuous; lra]). rewrite RInt_const_R, K'_zero. req. field.
    - intros t. unfold K_integrand'. replace (1 - 0 * sin t ^ 2) with 1 by ring. rewrite sqrt_1. req. field.
  Qed.
  Lemma sin_turn_zero psi : RInt (fun phi => sin (phi - psi) / sqrt (dist2 (cos (phi - psi))) ^ 3) 0 (2 * PI) = 0.
  Proof.
    apply (full_turn_sin (fun c => / sqrt (dist2 c) ^ 3)). intros t. apply (continuous_dist2 (fun u => / sqrt u ^ 3)). intros u Hu. pose proof (sqrt_lt_R0 _ Hu). auto_derive. conds.
  Qed.
End circles.

(** Any functions that agree with the elliptic integrals on [0, 1). *)
Definition exact_on_unit (K E : R -> R) : Prop := forall k, 0 <= k < 1 -> K k = elliptic_K k /\ E k = elliptic_E k.
Theorem loop_is_biot_savart K E (p : vec3) (a y : R) : exact_on_unit K E ->
  MIN_DISTANCE_AXIS <= a -> (MIN_DISTANCE_AXIS <= norm_2d (vx p) (vy p) \/ vx p = 0 /\ vy p = 0) -> ~ (norm_2d (vx p) (vy p) = a /\ vz p = y) ->
  from_cylinder p (fst (current_field_radial_ring_of K E (norm_2d (vx p) (vy p)) (vz p) a y)) (snd (current_field_radial_ring_of K E (norm_2d (vx p) (vy p)) (vz p) a y)) =
  integral_turn (biot_savart p a y).
Proof.
  destruct p as [px py pz]. cbn [vx vy vz]. intros EX Ha Hp Hoff. assert (M : 0 < MIN_DISTANCE_AXIS) by (unfold MIN_DISTANCE_AXIS; lra). pose proof PI_RGT_0 as Hpi.
  assert (Pa : 0 < a) by lra. pose proof (near2_pos _ _ _ _ Hoff) as N. pose proof (norm_2d_nonneg px py) as P0.
  destruct (polar px py) as (psi & E1 & E2). set (r0 := norm_2d px py) in *.
  pose proof (A_pos px py pz a y Pa) as PA. pose proof (m_lt px py pz a y Pa N) as Lm. pose proof (m_nonneg px py pz a y Pa) as Nm. cbv zeta in PA, Lm, Nm. fold r0 in PA, Lm, Nm.
  pose proof (sqrt_lt_R0 _ PA) as S. pose proof (modulus_complement r0 pz a y ltac:(lra)) as MC.
  destruct (EX (modulus r0 pz a y) (conj Nm Lm)) as (EK & EE).
  (* the integrand in terms of the relative angle *)
  assert (D : forall phi, norm (vsub (V3 px py pz) (circle a y phi)) = sqrt (dist2 px py pz a y (cos (phi - psi)))).
  { intros phi. rewrite <- (dist2_circle px py pz a y psi phi E1 E2). unfold norm, dot, vsub, circle. cbn [vx vy vz]. f_equal. ring. }
  set (I1 := RInt (fun phi => (0 + 1 * cos (phi - psi)) / sqrt (dist2 px py pz a y (cos (phi - psi))) ^ 3) 0 (2 * PI) : R).
  set (I2 := RInt (fun phi => (a + - r0 * cos (phi - psi)) / sqrt (dist2 px py pz a y (cos (phi - psi))) ^ 3) 0 (2 * PI) : R).
  assert (Pd : forall phi, 0 < sqrt (dist2 px py pz a y (cos (phi - psi)))) by (intros phi; apply sqrt_lt_R0; apply dist2_pos; [exact Pa|exact N|apply COS_bound]).
  assert (Cc : forall u v phi, continuous (fun phi : R => (u + v * cos (phi - psi)) / sqrt (dist2 px py pz a y (cos (phi - psi))) ^ 3) phi).
  { intros u v phi. apply (ex_derive_continuous (V := R_NormedModule) (fun phi => (u + v * cos (phi - psi)) / sqrt (dist2 px py pz a y (cos (phi - psi))) ^ 3)).
    pose proof (Pd phi) as Q. pose proof (dist2_pos px py pz a y Pa N (cos (phi - psi)) (proj2 (COS_bound _))) as Q'. unfold dist2 in *. auto_derive.
    change (phi + - psi) with (phi - psi) in *. change (1 + - cos (phi - psi)) with (1 - cos (phi - psi)) in *. repeat split; try lra. apply Rgt_not_eq. repeat apply Rmult_lt_0_compat; lra. }
  assert (Cs : forall phi, continuous (fun phi : R => sin (phi - psi) / sqrt (dist2 px py pz a y (cos (phi - psi))) ^ 3) phi).
  { intros phi. apply (ex_derive_continuous (V := R_NormedModule) (fun phi => sin (phi - psi) / sqrt (dist2 px py pz a y (cos (phi - psi))) ^ 3)).
    pose proof (Pd phi) as Q. pose proof (dist2_pos px py pz a y Pa N (cos (phi - psi)) (proj2 (COS_bound _))) as Q'. unfold dist2 in *. auto_derive.
    change (phi + - psi) with (phi - psi) in *. change (1 + - cos (phi - psi)) with (1 - cos (phi - psi)) in *. repeat split; try lra. apply Rgt_not_eq. repeat apply Rmult_lt_0_compat; lra. }
  assert (X : RInt (fun t => vx (biot_savart (V3 px py pz) a y t)) 0 (2 * PI) = a * (pz - y) / (4 * PI) * cos psi * I1).
  { rewrite (RInt_eq _ (fun phi => a * (pz - y) / (4 * PI) * cos psi * ((0 + 1 * cos (phi - psi)) / sqrt (dist2 px py pz a y (cos (phi - psi))) ^ 3) +
      - (a * (pz - y) / (4 * PI) * sin psi) * (sin (phi - psi) / sqrt (dist2 px py pz a y (cos (phi - psi))) ^ 3))).
    - rewrite (RInt_lin _ _ _ _ _ _ (Cc 0 1) Cs), sin_turn_zero by assumption. unfold I1. rint_gen. ring.
    - intros phi. unfold biot_savart. rewrite D. cbn [vx vy vz vscale cross circle' circle vsub]. assert (SP : cos phi = cos (phi - psi) * cos psi - sin (phi - psi) * sin psi) by (rewrite <- cos_plus; f_equal; ring). rewrite SP. pose proof (Pd phi). req. field. split; lra. }
  assert (Y : RInt (fun t => vy (biot_savart (V3 px py pz) a y t)) 0 (2 * PI) = a * (pz - y) / (4 * PI) * sin psi * I1).
  { rewrite (RInt_eq _ (fun phi => a * (pz - y) / (4 * PI) * sin psi * ((0 + 1 * cos (phi - psi)) / sqrt (dist2 px py pz a y (cos (phi - psi))) ^ 3) +
      (a * (pz - y) / (4 * PI) * cos psi) * (sin (phi - psi) / sqrt (dist2 px py pz a y (cos (phi - psi))) ^ 3))).
    - rewrite (RInt_lin _ _ _ _ _ _ (Cc 0 1) Cs), sin_turn_zero by assumption. unfold I1. rint_gen. ring.
    - intros phi. unfold biot_savart. rewrite D. cbn [vx vy vz vscale cross circle' circle vsub]. assert (SP : sin phi = sin (phi - psi) * cos psi + cos (phi - psi) * sin psi) by (rewrite <- sin_plus; f_equal; ring). rewrite SP. pose proof (Pd phi). req. field. split; lra. }
  assert (Z : RInt (fun t => vz (biot_savart (V3 px py pz) a y t)) 0 (2 * PI) = a / (4 * PI) * I2).
  { rewrite (RInt_eq _ (fun phi => a / (4 * PI) * ((a + - r0 * cos (phi - psi)) / sqrt (dist2 px py pz a y (cos (phi - psi))) ^ 3))).
    - rewrite (RInt_scale _ _ _ _ (Cc a (- r0))). reflexivity.
    - intros phi. unfold biot_savart. rewrite D. cbn [vx vy vz vscale cross circle' circle vsub].
      assert (C : cos phi * px + sin phi * py = r0 * cos (phi - psi)) by (rewrite cos_minus; clearbody r0; rewrite E1, E2; ring).
      pose proof (sin2_cos2 phi) as SC. unfold Rsqr in SC. pose proof (Pd phi).
      replace (- a * sin phi * (py - a * sin phi) - a * cos phi * (px - a * cos phi)) with (a * (a * (sin phi * sin phi + cos phi * cos phi) - (cos phi * px + sin phi * py))) by ring.
      rewrite C, SC. req. field. split; lra. }
  unfold integral_turn. rewrite X, Y, Z. unfold I1, I2. rewrite !cube_turn by assumption. fold r0.
  unfold current_field_radial_ring_of. destruct (Rlt_dec a MIN_DISTANCE_AXIS) as [B|_]; [lra|]. cbn [fst snd].
  replace ((pz - y) ^ 2 + (a + r0) ^ 2) with (far2 r0 pz a y) by (unfold far2; ring). replace ((pz - y) ^ 2 + (r0 - a) ^ 2) with (near2 r0 pz a y) by (unfold near2; ring).
  replace (4 * r0 * a / far2 r0 pz a y) with (modulus r0 pz a y) by (unfold modulus; f_equal; ring). rewrite EK, EE.
  unfold from_cylinder. cbn [vx vy vz]. fold r0.
  assert (SA : sqrt (far2 r0 pz a y) ^ 2 = far2 r0 pz a y) by (rewrite <- Rsqr_pow2, Rsqr_sqrt; lra).
  destruct Hp as [Hp|[Hx Hy]].
  - destruct (Rle_dec MIN_DISTANCE_AXIS r0) as [_|B]; [|contradiction]. destruct (Rlt_dec r0 MIN_DISTANCE_AXIS) as [B|_]; [lra|].
    assert (Pm : 0 < modulus r0 pz a y) by (unfold modulus; apply Rdiv_lt_0_compat; [nra|exact PA]).
    pose proof (cube_value px py pz a y Pa N 0 1 Pm) as V1. pose proof (cube_value px py pz a y Pa N a (- r0) Pm) as V2. fold r0 in V1, V2. rewrite V1, V2, MC. clear V1 V2.
    assert (G : 1 / PI * (pz - y) / (2 * r0 * sqrt (far2 r0 pz a y)) * (((pz - y) ^ 2 + r0 ^ 2 + a ^ 2) / near2 r0 pz a y * elliptic_E (modulus r0 pz a y) - elliptic_K (modulus r0 pz a y)) =
      a * (pz - y) / (4 * PI) * (4 / sqrt (far2 r0 pz a y) ^ 3 * ((0 - 1 + 2 * 1 / modulus r0 pz a y) * (elliptic_E (modulus r0 pz a y) / (near2 r0 pz a y / far2 r0 pz a y)) - 2 * 1 / modulus r0 pz a y * elliptic_K (modulus r0 pz a y)))).
    { set (Kv := elliptic_K _). set (Ev := elliptic_E _). unfold modulus. replace (sqrt (far2 r0 pz a y) ^ 3) with (far2 r0 pz a y * sqrt (far2 r0 pz a y)) by (rewrite <- SA at 1; ring).
      set (w := sqrt _) in *. clearbody Kv Ev w. field_simplify_eq; [|repeat split; lra]. unfold far2, near2. ring. }
    rewrite G. f_equal.
    + clearbody r0. rewrite E1 at 1. field. repeat split; try lra.
    + clearbody r0. rewrite E2 at 1. field. repeat split; try lra.
    + set (Kv := elliptic_K _). set (Ev := elliptic_E _). unfold modulus. replace (sqrt (far2 r0 pz a y) ^ 3) with (far2 r0 pz a y * sqrt (far2 r0 pz a y)) by (rewrite <- SA at 1; ring).
      set (w := sqrt _) in *. clearbody Kv Ev w. field_simplify_eq; [|repeat split; lra]. unfold far2, near2. ring.
  - assert (R0 : r0 = 0) by (unfold r0; rewrite Hx, Hy; unfold norm_2d; replace (0 * 0 + 0 * 0) with 0 by ring; exact sqrt_0).
    assert (m0 : modulus r0 pz a y = 0) by (rewrite R0; unfold modulus, Rdiv; ring).
    pose proof (cube_value_0 px py pz a y 0 1 m0) as V1. pose proof (cube_value_0 px py pz a y a (- r0) m0) as V2. fold r0 in V1, V2. rewrite V1, V2, m0, K_zero, E_zero. rewrite R0 in *. destruct (Rle_dec MIN_DISTANCE_AXIS 0) as [B|_]; [lra|].
    assert (NF : near2 0 pz a y = far2 0 pz a y) by (unfold near2, far2; ring). f_equal; [ring|ring|]. rewrite NF.
    replace (sqrt (far2 0 pz a y) ^ 3) with (far2 0 pz a y * sqrt (far2 0 pz a y)) by (rewrite <- SA at 1; ring). field_simplify_eq; [|repeat split; lra]. unfold far2. ring.
Qed.
