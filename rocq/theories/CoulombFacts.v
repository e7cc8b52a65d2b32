(** The reported field of a charged ring is the integral of Coulomb's law over the ring (used by C82). *)
From Coq Require Import Reals Lra Lia Psatz.
From Coquelicot Require Import Coquelicot.
From Verif Require Import Base BaseFacts Vec GeomModel OutwardFacts FieldModel FieldFacts SeriesModel SeriesFacts Field3DFacts
  EllipticSpec EllipticFacts RingModel RingFacts LoopFacts FieldSeriesFacts.
Local Open Scope R_scope.

Theorem ring_is_coulomb (p : vec3) (a y : R) : 0 < a -> (MIN_DISTANCE_AXIS <= norm_2d (vx p) (vy p) \/ vx p = 0 /\ vy p = 0) -> ~ (norm_2d (vx p) (vy p) = a /\ vz p = y) ->
  from_cylinder p (- dr1_potential_radial_ring_of exact_km1 exact_em1 (norm_2d (vx p) (vy p)) (vz p) a y) (- dz1_potential_radial_ring_of exact_em1 (norm_2d (vx p) (vy p)) (vz p) a y) =
  integral_turn (coulomb p a y).
Proof.
  destruct p as [px py pz]. cbn [vx vy vz]. intros Pa Hp Hoff. assert (M : 0 < MIN_DISTANCE_AXIS) by (unfold MIN_DISTANCE_AXIS; lra). pose proof PI_RGT_0 as Hpi.
  pose proof (near2_pos _ _ _ _ Hoff) as N. pose proof (norm_2d_nonneg px py) as P0.
  destruct (polar px py) as (psi & E1 & E2). set (r0 := norm_2d px py) in *.
  pose proof (A_pos px py pz a y Pa) as PA. pose proof (m_lt px py pz a y Pa N) as Lm. pose proof (m_nonneg px py pz a y Pa) as Nm. cbv zeta in PA, Lm, Nm. fold r0 in PA, Lm, Nm.
  pose proof (sqrt_lt_R0 _ PA) as S. pose proof (modulus_complement r0 pz a y ltac:(lra)) as MC.
  assert (D : forall phi, norm (vsub (V3 px py pz) (circle a y phi)) = sqrt (dist2 px py pz a y (cos (phi - psi)))).
  { intros phi. rewrite <- (dist2_circle px py pz a y psi phi E1 E2). unfold norm, dot, vsub, circle. cbn [vx vy vz]. f_equal. ring. }
  set (I1 := RInt (fun phi => (r0 + - a * cos (phi - psi)) / sqrt (dist2 px py pz a y (cos (phi - psi))) ^ 3) 0 (2 * PI) : R).
  set (I2 := RInt (fun phi => (1 + 0 * cos (phi - psi)) / sqrt (dist2 px py pz a y (cos (phi - psi))) ^ 3) 0 (2 * PI) : R).
  assert (Pd : forall phi, 0 < sqrt (dist2 px py pz a y (cos (phi - psi)))) by (intros phi; apply sqrt_lt_R0; apply dist2_pos; [exact Pa|exact N|apply COS_bound]).
  assert (Cc : forall u v phi, continuous (fun phi : R => (u + v * cos (phi - psi)) / sqrt (dist2 px py pz a y (cos (phi - psi))) ^ 3) phi).
  { intros u v phi. apply (ex_derive_continuous (V := R_NormedModule) (fun phi => (u + v * cos (phi - psi)) / sqrt (dist2 px py pz a y (cos (phi - psi))) ^ 3)).
    pose proof (Pd phi) as Q. pose proof (dist2_pos px py pz a y Pa N (cos (phi - psi)) (proj2 (COS_bound _))) as Q'. unfold dist2 in *. auto_derive.
    change (phi + - psi) with (phi - psi) in *. change (1 + - cos (phi - psi)) with (1 - cos (phi - psi)) in *. repeat split; try lra. apply Rgt_not_eq. repeat apply Rmult_lt_0_compat; lra. }
  assert (Cs : forall phi, continuous (fun phi : R => sin (phi - psi) / sqrt (dist2 px py pz a y (cos (phi - psi))) ^ 3) phi).
  { intros phi. apply (ex_derive_continuous (V := R_NormedModule) (fun phi => sin (phi - psi) / sqrt (dist2 px py pz a y (cos (phi - psi))) ^ 3)).
    pose proof (Pd phi) as Q. pose proof (dist2_pos px py pz a y Pa N (cos (phi - psi)) (proj2 (COS_bound _))) as Q'. unfold dist2 in *. auto_derive.
    change (phi + - psi) with (phi - psi) in *. change (1 + - cos (phi - psi)) with (1 - cos (phi - psi)) in *. repeat split; try lra. apply Rgt_not_eq. repeat apply Rmult_lt_0_compat; lra. }
  assert (X : RInt (fun t => vx (coulomb (V3 px py pz) a y t)) 0 (2 * PI) = a / (4 * PI) * cos psi * I1).
  { rewrite (RInt_eq _ (fun phi => a / (4 * PI) * cos psi * ((r0 + - a * cos (phi - psi)) / sqrt (dist2 px py pz a y (cos (phi - psi))) ^ 3) +
      (a / (4 * PI) * a * sin psi) * (sin (phi - psi) / sqrt (dist2 px py pz a y (cos (phi - psi))) ^ 3))).
    - rewrite (RInt_lin _ _ _ _ _ _ (Cc r0 (- a)) Cs), sin_turn_zero by assumption. unfold I1. rint_gen. ring.
    - intros phi. unfold coulomb. rewrite D. cbn [vx vy vz vscale circle vsub]. assert (SP : cos phi = cos (phi - psi) * cos psi - sin (phi - psi) * sin psi) by (rewrite <- cos_plus; f_equal; ring). rewrite SP. pose proof (Pd phi) as Pw.
      set (w := sqrt (dist2 px py pz a y (cos (phi - psi)))) in *. clearbody w r0. rewrite E1. req. field. split; lra. }
  assert (Y : RInt (fun t => vy (coulomb (V3 px py pz) a y t)) 0 (2 * PI) = a / (4 * PI) * sin psi * I1).
  { rewrite (RInt_eq _ (fun phi => a / (4 * PI) * sin psi * ((r0 + - a * cos (phi - psi)) / sqrt (dist2 px py pz a y (cos (phi - psi))) ^ 3) +
      - (a / (4 * PI) * a * cos psi) * (sin (phi - psi) / sqrt (dist2 px py pz a y (cos (phi - psi))) ^ 3))).
    - rewrite (RInt_lin _ _ _ _ _ _ (Cc r0 (- a)) Cs), sin_turn_zero by assumption. unfold I1. rint_gen. ring.
    - intros phi. unfold coulomb. rewrite D. cbn [vx vy vz vscale circle vsub]. assert (SP : sin phi = sin (phi - psi) * cos psi + cos (phi - psi) * sin psi) by (rewrite <- sin_plus; f_equal; ring). rewrite SP. pose proof (Pd phi) as Pw.
      set (w := sqrt (dist2 px py pz a y (cos (phi - psi)))) in *. clearbody w r0. rewrite E2. req. field. split; lra. }
  assert (Z : RInt (fun t => vz (coulomb (V3 px py pz) a y t)) 0 (2 * PI) = a / (4 * PI) * (pz - y) * I2).
  { rewrite (RInt_eq _ (fun phi => a / (4 * PI) * (pz - y) * ((1 + 0 * cos (phi - psi)) / sqrt (dist2 px py pz a y (cos (phi - psi))) ^ 3))).
    - rewrite (RInt_scale _ _ _ _ (Cc 1 0)). reflexivity.
    - intros phi. unfold coulomb. rewrite D. cbn [vx vy vz vscale circle vsub]. pose proof (Pd phi). req. field. split; lra. }
  unfold integral_turn. rewrite X, Y, Z. unfold I1, I2. rewrite !cube_turn by assumption. fold r0.
  unfold from_cylinder. cbn [vx vy vz]. fold r0.
  assert (SA : sqrt (far2 r0 pz a y) ^ 2 = far2 r0 pz a y) by (rewrite <- Rsqr_pow2, Rsqr_sqrt; lra).
  rewrite (ring_dz1_exact r0 pz a y P0 Pa N).
  destruct Hp as [Hp|[Hx Hy]].
  - destruct (Rle_dec MIN_DISTANCE_AXIS r0) as [_|B]; [|contradiction]. rewrite (ring_dr1_exact r0 pz a y Hp Pa N).
    assert (Pm : 0 < modulus r0 pz a y) by (unfold modulus; apply Rdiv_lt_0_compat; [nra|exact PA]).
    pose proof (cube_value px py pz a y Pa N r0 (- a) Pm) as V1. pose proof (cube_value px py pz a y Pa N 1 0 Pm) as V2. fold r0 in V1, V2. rewrite V1, V2, MC. clear V1 V2.
    assert (G : - (- a / (2 * PI * r0 * sqrt (far2 r0 pz a y)) * (elliptic_K (modulus r0 pz a y) + (r0 ^ 2 - a ^ 2 - (y - pz) ^ 2) / near2 r0 pz a y * elliptic_E (modulus r0 pz a y))) =
      a / (4 * PI) * (4 / sqrt (far2 r0 pz a y) ^ 3 * ((r0 - - a + 2 * - a / modulus r0 pz a y) * (elliptic_E (modulus r0 pz a y) / (near2 r0 pz a y / far2 r0 pz a y)) - 2 * - a / modulus r0 pz a y * elliptic_K (modulus r0 pz a y)))).
    { set (Kv := elliptic_K _). set (Ev := elliptic_E _). unfold modulus. replace (sqrt (far2 r0 pz a y) ^ 3) with (far2 r0 pz a y * sqrt (far2 r0 pz a y)) by (rewrite <- SA at 1; ring).
      set (w := sqrt _) in *. clearbody Kv Ev w. field_simplify_eq; [|repeat split; lra]. unfold far2, near2. ring. }
    rewrite G. f_equal.
    + clearbody r0. rewrite E1 at 1. field. repeat split; try lra.
    + clearbody r0. rewrite E2 at 1. field. repeat split; try lra.
    + set (Kv := elliptic_K _). set (Ev := elliptic_E _). unfold modulus. replace (sqrt (far2 r0 pz a y) ^ 3) with (far2 r0 pz a y * sqrt (far2 r0 pz a y)) by (rewrite <- SA at 1; ring).
      set (w := sqrt _) in *. clearbody Kv Ev w. field_simplify_eq; [|repeat split; lra]. unfold far2, near2. ring.
  - assert (R0 : r0 = 0) by (unfold r0; rewrite Hx, Hy; unfold norm_2d; replace (0 * 0 + 0 * 0) with 0 by ring; exact sqrt_0).
    assert (m0 : modulus r0 pz a y = 0) by (rewrite R0; unfold modulus, Rdiv; ring).
    pose proof (cube_value_0 px py pz a y r0 (- a) m0) as V1. pose proof (cube_value_0 px py pz a y 1 0 m0) as V2. fold r0 in V1, V2. rewrite V1, V2, m0, E_zero. rewrite R0 in *. destruct (Rle_dec MIN_DISTANCE_AXIS 0) as [B|_]; [lra|].
    assert (NF : near2 0 pz a y = far2 0 pz a y) by (unfold near2, far2; ring). f_equal; [ring|ring|]. rewrite NF.
    replace (sqrt (far2 0 pz a y) ^ 3) with (far2 0 pz a y * sqrt (far2 0 pz a y)) by (rewrite <- SA at 1; ring). field. repeat split; lra.
Qed.
