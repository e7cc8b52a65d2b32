(** Truncation of the three-dimensional series around the axis. *)
From Coq Require Import Reals ZArith Lra Lia Psatz.
From Coquelicot Require Import Coquelicot.
From Verif Require Import Base BaseFacts Vec GeomModel PathModel PathOpsFacts OutwardFacts FieldModel SeriesModel SeriesFacts InterpFacts Field3DFacts Axial3DModel Axial3DFacts HarmonicFacts AxialTable.
From Verif Require Import AxialErrorFacts.
From Verif Require LegendreFacts RadialSeriesFacts.
From Verif Require Import Props_Expansion.
Local Open Scope R_scope.

(** ** The two presentations of the Legendre polynomials *)
Lemma legendre_leg n x : Rabs x <= 1 -> legendre n x = LegendreFacts.leg n x (sqrt (1 - x ^ 2)).
Proof.
  intros Hx. pose proof (RadialSeriesFacts.cos_sin_unit x Hx) as U. set (s := sqrt (1 - x ^ 2)) in *. clearbody s.
  assert (P : forall n, legendre n x = LegendreFacts.leg n x s /\ legendre (S n) x = LegendreFacts.leg (S n) x s).
  { clear n. induction n as [|n [I1 I2]].
    - split; [reflexivity|]. rewrite LegendreFacts.leg_S. unfold legendre, LegendreFacts.leg, LegendreFacts.legw. cbn. field.
    - split; [exact I2|]. rewrite legendre_SS, I1, I2, <- (LegendreFacts.leg_rec n x s U). field. apply not_0_INR. lia. }
  apply P.
Qed.
Lemma legendre_bound n x : Rabs x <= 1 -> Rabs (legendre n x) <= 1.
Proof. intros Hx. rewrite legendre_leg by exact Hx. apply LegendreFacts.leg_bound, RadialSeriesFacts.cos_sin_unit, Hx. Qed.

(** ** Bounds of the coefficients H *)
Lemma sin_period_0 k : sin (INR k * (2 * PI)) = 0.
Proof. replace (INR k * (2 * PI)) with (0 + 2 * INR k * PI) by ring. rewrite sin_period. apply sin_0. Qed.
Lemma cos_int k : (0 < k)%nat -> is_RInt (fun t => cos (INR k * t)) 0 (2 * PI) 0.
Proof.
  intros Hk. assert (K : INR k <> 0) by (apply not_0_INR; lia).
  replace 0 with (minus ((fun t => sin (INR k * t) / INR k) (2 * PI)) ((fun t => sin (INR k * t) / INR k) 0)) at 2.
  - apply (is_RInt_derive (V := R_CompleteNormedModule) (fun t => sin (INR k * t) / INR k) (fun t => cos (INR k * t))).
    + intros t _. auto_derive; [exact I|]. field. exact K.
    + intros t _. apply (ex_derive_continuous (fun t => cos (INR k * t))). auto_derive. exact I.
  - unfold minus, plus, opp. cbn. rewrite sin_period_0, Rmult_0_r, sin_0. field. exact K.
Qed.
Lemma one_int : is_RInt (fun _ => 1) 0 (2 * PI) (2 * PI).
Proof. pose proof (is_RInt_const 0 (2 * PI) 1) as C. unfold scal in C. cbn in C. unfold mult in C. cbn in C. replace (2 * PI) with ((2 * PI - 0) * 1) at 2 by ring. exact C. Qed.
(** the integral of cos kt cos mt over a period *)
Definition period_weight (k m : nat) : R := if (k =? m)%nat then if (m =? 0)%nat then 2 * PI else PI else 0.
Lemma cos_cos k m t : cos (INR k * t) * cos (INR m * t) = (cos (INR (k + m) * t) + cos (INR (Nat.max k m - Nat.min k m) * t)) / 2.
Proof.
  assert (S : forall k m, (m <= k)%nat -> cos (INR k * t) * cos (INR m * t) = (cos (INR (k + m) * t) + cos (INR (k - m) * t)) / 2).
  { clear. intros k m H. rewrite plus_INR, minus_INR by exact H. rewrite Rmult_plus_distr_r, Rmult_minus_distr_r, cos_plus, cos_minus. field. }
  destruct (Nat.le_ge_cases m k) as [H|H].
  - rewrite Nat.max_l, Nat.min_r by exact H. apply S. exact H.
  - rewrite Nat.max_r, Nat.min_l by exact H. rewrite Rmult_comm, (Nat.add_comm k m). apply S. exact H.
Qed.
Lemma cos_cos_int k m : is_RInt (fun t => cos (INR k * t) * cos (INR m * t)) 0 (2 * PI) (period_weight k m).
Proof.
  assert (C : forall j, is_RInt (fun t => cos (INR j * t)) 0 (2 * PI) (if (j =? 0)%nat then 2 * PI else 0)).
  { intros [|j]; [|apply cos_int; lia]. eapply is_RInt_ext; [|exact one_int]. intros t _. cbn. rewrite Rmult_0_l, cos_0. reflexivity. }
  eapply is_RInt_ext; [intros t _; symmetry; apply cos_cos|].
  pose proof (is_RInt_scal _ 0 (2 * PI) (/ 2) _ (is_RInt_plus _ _ 0 (2 * PI) _ _ (C (k + m)%nat) (C (Nat.max k m - Nat.min k m)%nat))) as I.
  eapply is_RInt_ext; [|replace (period_weight k m) with (scal (/ 2) (plus (if (k + m =? 0)%nat then 2 * PI else 0) (if (Nat.max k m - Nat.min k m =? 0)%nat then 2 * PI else 0))); [exact I|]].
  - intros t _. unfold scal, plus. cbn. unfold mult. cbn. field.
  - unfold scal, plus. cbn. unfold mult. cbn. unfold period_weight.
    destruct (Nat.eqb_spec k m) as [E|E]; destruct (Nat.eqb_spec m 0) as [Z|Z]; destruct (Nat.eqb_spec (k + m) 0) as [Y|Y]; destruct (Nat.eqb_spec (Nat.max k m - Nat.min k m) 0) as [X|X]; try lia; field.
Qed.
Lemma fsum_int b m N : (m < N)%nat -> is_RInt (fun t => fsum b t N * cos (INR m * t)) 0 (2 * PI) (b m * period_weight m m).
Proof.
  assert (P : forall N, is_RInt (fun t => fsum b t N * cos (INR m * t)) 0 (2 * PI) (if (m <? N)%nat then b m * period_weight m m else 0)).
  { clear N. induction N as [|N IH].
    - cbn [fsum Nat.ltb Nat.leb]. assert (Z : is_RInt (fun _ : R => 0) 0 (2 * PI) 0).
      { pose proof (is_RInt_const 0 (2 * PI) 0) as C. unfold scal in C. cbn in C. unfold mult in C. cbn in C. rewrite Rmult_0_r in C. exact C. }
      apply (is_RInt_ext (fun _ => 0)); [intros t _; symmetry; apply Rmult_0_l|exact Z].
    - pose proof (is_RInt_plus _ _ 0 (2 * PI) _ _ IH (is_RInt_scal _ 0 (2 * PI) (b N) _ (cos_cos_int N m))) as I.
      assert (E : (if (m <? N)%nat then b m * period_weight m m else 0) + b N * period_weight N m = if (m <? S N)%nat then b m * period_weight m m else 0).
      { destruct (Nat.ltb_spec m N); destruct (Nat.ltb_spec m (S N)); try lia.
        - unfold period_weight at 2. destruct (Nat.eqb_spec N m); [lia|]. ring.
        - replace N with m by lia. ring.
        - unfold period_weight. destruct (Nat.eqb_spec N m); [lia|]. ring. }
      refine (eq_ind _ (fun v : R => is_RInt (fun t => fsum b t (S N) * cos (INR m * t)) 0 (2 * PI) v) _ _ E). eapply is_RInt_ext; [|exact I]. intros t _. cbn beta. req. unfold plus, scal. cbn. unfold mult. cbn. ring. }
  intros H. pose proof (P N) as I. destruct (Nat.ltb_spec m N); [exact I|lia].
Qed.
Lemma H_bound n m s : 0 <= s <= 1 -> Rabs (H n m s) <= 2.
Proof.
  intros Hs. destruct (Nat.le_gt_cases m n) as [L|L]; [|rewrite H_high by exact L; rewrite Rabs_R0; lra].
  pose proof PI_RGT_0 as PP.
  pose proof (fsum_int (fun j => H n j s) m (S n) ltac:(lia)) as I.
  assert (B : Rabs (H n m s * period_weight m m) <= (2 * PI - 0) * 1).
  { apply (norm_RInt_le_const (V := R_NormedModule) (fun t => fsum (fun j => H n j s) t (S n) * cos (INR m * t)) 0 (2 * PI) _ 1); [lra| |exact I].
    intros t _. change (Rabs (fsum (fun j => H n j s) t (S n) * cos (INR m * t)) <= 1). rewrite <- legendre_cos, Rabs_mult.
    assert (C : forall u, Rabs (cos u) <= 1) by (intros u; apply Rabs_le, COS_bound).
    pose proof (C (INR m * t)) as C1. pose proof (C t) as C2. pose proof (Rabs_pos (cos t)). pose proof (Rabs_pos (cos (INR m * t))).
    assert (L1 : Rabs (legendre n (s * cos t)) <= 1) by (apply legendre_bound; rewrite Rabs_mult, (Rabs_pos_eq s) by lra; nra).
    pose proof (Rabs_pos (legendre n (s * cos t))). nra. }
  rewrite Rabs_mult in B. pose proof (Rabs_pos (H n m s)) as P0.
  assert (W : PI <= Rabs (period_weight m m)).
  { unfold period_weight. rewrite Nat.eqb_refl. destruct (m =? 0)%nat; rewrite Rabs_pos_eq by lra; lra. }
  apply (Rmult_le_reg_r PI); [lra|]. nra.
Qed.

(** ** One charge *)
(** the term (nu, m) of the series of a unit charge, without the rounding of the factorials *)
Definition series_term (s t x : R) (nu m : nat) : R := H (2 * nu + m) m s * cos (INR m * t) * x ^ (2 * nu + m).
Lemma series_term_bound s t x nu m : 0 <= s <= 1 -> 0 <= x -> Rabs (series_term s t x nu m) <= 2 * x ^ (2 * nu + m).
Proof.
  intros Hs Hx. unfold series_term. pose proof (pow_le x (2 * nu + m) Hx) as P. rewrite !Rabs_mult, (Rabs_pos_eq (x ^ _)) by exact P.
  apply Rmult_le_compat_r; [exact P|]. pose proof (H_bound (2 * nu + m) m s Hs) as B1. pose proof (Rabs_pos (H (2 * nu + m) m s)) as B2.
  assert (C : Rabs (cos (INR m * t)) <= 1) by (apply Rabs_le, COS_bound). pose proof (Rabs_pos (cos (INR m * t))). nra.
Qed.
(** the Legendre terms of degree at most seven are among the thirty-two terms of the code *)
Definition beyond (nu m : nat) : bool := (8 <=? 2 * nu + m)%nat.
Lemma legendre_terms s t x :
  sum_nu_m (fun nu m => if beyond nu m then 0 else series_term s t x nu m) = RadialSeriesFacts.expansion (fun n => legendre n (s * cos t)) 8 x.
Proof.
  unfold RadialSeriesFacts.expansion. rewrite !legendre_cos. unfold sum_nu_m, arange, NU_MAX, M_MAX, beyond, series_term.
  cbn [seq map Rsum fsum Nat.leb Nat.mul Nat.add].
  rewrite (H_parity 1 0), (H_parity 2 1), (H_parity 3 0), (H_parity 3 2), (H_parity 4 1), (H_parity 4 3), (H_parity 5 0), (H_parity 5 2), (H_parity 5 4), (H_parity 6 1), (H_parity 6 3), (H_parity 6 5), (H_parity 7 0), (H_parity 7 2), (H_parity 7 4), (H_parity 7 6) by reflexivity.
  ring.
Qed.
Definition beyond_weight (nu m : nat) (x : R) : R := if beyond nu m then 2 * x ^ (2 * nu + m) else 0.
Lemma sum_nu_m_abs f g : (forall nu m, (nu < 4)%nat -> (m < 8)%nat -> Rabs (f nu m) <= g nu m) -> Rabs (sum_nu_m f) <= sum_nu_m g.
Proof.
  intros B. unfold sum_nu_m. apply Rsum_abs. intros nu Hn. apply Rsum_abs. intros m Hm. unfold arange, NU_MAX, M_MAX in *. apply in_seq in Hn, Hm. apply B; lia.
Qed.
Lemma sum_nu_m_const k : sum_nu_m (fun _ _ => k) = 32 * k.
Proof. unfold sum_nu_m, arange, NU_MAX, M_MAX. cbn [seq map Rsum]. ring. Qed.
Lemma pow_le_8 x n : 0 <= x <= 1 -> (8 <= n)%nat -> x ^ n <= x ^ 8.
Proof.
  intros Hx Hn. replace n with (8 + (n - 8))%nat by lia. rewrite pow_add. pose proof (pow_le x 8 (proj1 Hx)). pose proof (pow_le x (n - 8) (proj1 Hx)).
  assert (x ^ (n - 8) <= 1) by (rewrite <- (pow1 (n - 8)); apply pow_incr; lra). nra.
Qed.
Lemma pow_le_1 x n : 0 <= x <= 1 -> x ^ n <= 1.
Proof. intros Hx. rewrite <- (pow1 n). apply pow_incr. lra. Qed.
Lemma extra_terms s t x : 0 <= s <= 1 -> 0 <= x <= 1 ->
  Rabs (sum_nu_m (series_term s t x) - RadialSeriesFacts.expansion (fun n => legendre n (s * cos t)) 8 x) <= 24 * x ^ 8.
Proof.
  intros Hs Hx. rewrite <- legendre_terms.
  replace (sum_nu_m (series_term s t x) - sum_nu_m (fun nu m => if beyond nu m then 0 else series_term s t x nu m)) with
    (sum_nu_m (fun nu m => if beyond nu m then series_term s t x nu m else 0)).
  - apply Rle_trans with (sum_nu_m (fun nu m => if beyond nu m then 2 * x ^ 8 else 0)).
    + apply sum_nu_m_abs. intros nu m _ _. unfold beyond. destruct (Nat.leb_spec 8 (2 * nu + m)) as [L|L]; [|rewrite Rabs_R0; lra].
      eapply Rle_trans; [apply series_term_bound; [exact Hs|lra]|]. pose proof (pow_le_8 x _ Hx L). lra.
    + unfold sum_nu_m, arange, NU_MAX, M_MAX, beyond. cbn [seq map Rsum Nat.leb Nat.mul Nat.add]. lra.
  - enough (E : sum_nu_m (series_term s t x) = sum_nu_m (fun nu m => (if beyond nu m then series_term s t x nu m else 0) + (if beyond nu m then 0 else series_term s t x nu m))) by (rewrite E, sum_nu_m_plus; ring).
    apply sum_nu_m_ext. intros nu m. destruct (beyond nu m); ring.
Qed.

(** ** The coefficients computed by the code *)
Definition rounding (nu m : nat) : R := nth m (nth nu factorial_table []) 0 * INR (fact (2 * nu + m)).
Lemma axial_term_value q z nu m : (nu < 4)%nat -> (m < 8)%nat -> vx q <> 0 \/ vy q <> 0 ->
  axial_term trig_cos z nu m q = rounding nu m * (point_coef q z (2 * nu + m) m * cos (INR m * atan2 (vy q) (vx q))) /\
  axial_term trig_sin z nu m q = rounding nu m * (point_coef q z (2 * nu + m) m * sin (INR m * atan2 (vy q) (vx q))).
Proof.
  intros Hn Hm O. pose proof PI_RGT_0 as PP. split.
  - pose proof (term_value q z O trig_cos nu m Hn Hm) as T. unfold trig_cos in T at 2. fold (rounding nu m) in T. destruct (m =? 0)%nat.
    + apply (Rmult_eq_reg_r (1 / 2)); [|lra]. rewrite T. field. lra.
    + rewrite Rmult_1_r in T. rewrite T. field. lra.
  - pose proof (term_value q z O trig_sin nu m Hn Hm) as T. unfold trig_sin in T at 2. fold (rounding nu m) in T. destruct (m =? 0)%nat eqn:E0.
    + apply Nat.eqb_eq in E0. subst m. unfold axial_term, trig_sin. cbn [INR]. rewrite !Rmult_0_l, sin_0. ring.
    + rewrite Rmult_1_r in T. rewrite T. field. lra.
Qed.
Lemma evaluate_Rsum {A} (K : A -> vec3 -> R) (l : list A) c : Rsum (map (fun i => evaluate (K i) c) l) = evaluate (fun q => Rsum (map (fun i => K i q) l)) c.
Proof.
  induction l as [|a l IH]; cbn [map Rsum].
  - symmetry. transitivity (evaluate (fun v => 0 * 0 + 0 * 0) c); [apply evaluate_ext; intros; ring|]. rewrite (evaluate_lin2 0 0 (fun _ => 0) (fun _ => 0)). ring.
  - rewrite IH. rewrite <- (Rmult_1_l (evaluate (K a) c)), <- (Rmult_1_l (evaluate (fun q => Rsum (map (fun i => K i q) l)) c)), <- evaluate_lin2. apply evaluate_ext. intros. ring.
Qed.
Lemma evaluate_sum_nu_m (K : nat -> nat -> vec3 -> R) c : sum_nu_m (fun nu m => evaluate (K nu m) c) = evaluate (fun q => sum_nu_m (fun nu m => K nu m q)) c.
Proof.
  unfold sum_nu_m. rewrite <- (evaluate_Rsum (fun nu q => Rsum (map (fun m => K nu m q) (arange M_MAX)))). apply Rsum_ext. intros nu _. apply (evaluate_Rsum (K nu)).
Qed.
Lemma sum_nu_m_ext_in f g : (forall nu m, (nu < 4)%nat -> (m < 8)%nat -> f nu m = g nu m) -> sum_nu_m f = sum_nu_m g.
Proof.
  intros E. unfold sum_nu_m. apply Rsum_ext. intros nu Hn. apply Rsum_ext. intros m Hm. unfold arange, NU_MAX, M_MAX in *. apply in_seq in Hn, Hm. apply E; lia.
Qed.
(** the value of the series of one charge *)
Definition point_series (z r phi : R) (q : vec3) : R :=
  1 / (4 * PI) / dist_axis q z * sum_nu_m (fun nu m => rounding nu m * series_term (slope q z) (phi - atan2 (vy q) (vx q)) (r / dist_axis q z) nu m).
Lemma series_of_charges z r phi c : away_from_axis c ->
  sum_nu_m (potential3d_term (axial_coefficient false z c) (axial_coefficient true z c) r phi) = evaluate (point_series z r phi) c.
Proof.
  intros Off. unfold potential3d_term, axial_coefficient.
  transitivity (sum_nu_m (fun nu m => evaluate (fun q => cos (INR m * phi) * r ^ (m + 2 * nu) * axial_term trig_cos z nu m q + sin (INR m * phi) * r ^ (m + 2 * nu) * axial_term trig_sin z nu m q) c)).
  { apply sum_nu_m_ext. intros nu m. rewrite evaluate_lin2. ring. }
  rewrite evaluate_sum_nu_m. apply evaluate_ext. intros x Hx jp Hjp. set (q := snd jp). pose proof (Off x jp Hx Hjp) as O. fold q in O.
  pose proof (dist_axis_pos q z O) as PD. pose proof PI_RGT_0 as PP. unfold point_series. rewrite <- sum_nu_m_scal. apply sum_nu_m_ext_in. intros nu m Hn Hm.
  destruct (axial_term_value q z nu m Hn Hm O) as [E1 E2]. rewrite E1, E2. unfold point_coef, series_term.
  rewrite (Rmult_minus_distr_l (INR m)), cos_minus. replace (m + 2 * nu)%nat with (2 * nu + m)%nat by lia. unfold Rdiv. rewrite Rpow_mult_distr, pow_inv. cbn [pow].
  field. repeat split; try lra. apply pow_nonzero. lra.
Qed.
Lemma slope_bounds q z : vx q <> 0 \/ vy q <> 0 -> 0 <= slope q z <= 1.
Proof.
  intros O. pose proof (rho_pos q O) as PR. pose proof (dist_axis_pos q z O) as PD. unfold slope. split; [apply Rlt_le, Rdiv_lt_0_compat; assumption|].
  apply (Rmult_le_reg_r (dist_axis q z)); [exact PD|]. unfold Rdiv. rewrite Rmult_assoc, Rinv_l, Rmult_1_r, Rmult_1_l by lra.
  unfold rho, norm_2d, dist_axis. apply sqrt_le_1_alt. pose proof (Rle_0_sqr (vz q - z)) as Z. unfold Rsqr in Z. lra.
Qed.
Lemma along_bound q z phi : vx q <> 0 \/ vy q <> 0 -> Rabs (along q phi) <= dist_axis q z.
Proof.
  intros O. pose proof (dist_axis_pos q z O) as PD. pose proof (slope_bounds q z O) as PS. replace (along q phi) with (dist_axis q z * (slope q z * cos (phi - atan2 (vy q) (vx q)))).
  - rewrite Rabs_mult, (Rabs_pos_eq (dist_axis q z)), Rabs_mult, (Rabs_pos_eq (slope q z)) by lra. assert (C : Rabs (cos (phi - atan2 (vy q) (vx q))) <= 1) by (apply Rabs_le, COS_bound).
    pose proof (Rabs_pos (cos (phi - atan2 (vy q) (vx q)))). assert (slope q z * Rabs (cos (phi - atan2 (vy q) (vx q))) <= 1) by nra. nra.
  - rewrite <- along_polar by exact O. field. lra.
Qed.
Lemma point_expansion q z phi r : vx q <> 0 \/ vy q <> 0 ->
  RadialSeriesFacts.expansion (RadialSeriesFacts.coef (dist_axis q z) (along q phi)) 8 r =
  / dist_axis q z * RadialSeriesFacts.expansion (fun n => legendre n (slope q z * cos (phi - atan2 (vy q) (vx q)))) 8 (r / dist_axis q z).
Proof.
  intros O. pose proof (dist_axis_pos q z O) as PD. pose proof (along_bound q z phi O) as AB.
  assert (E : forall n, RadialSeriesFacts.coef (dist_axis q z) (along q phi) n * r ^ n = / dist_axis q z * (legendre n (slope q z * cos (phi - atan2 (vy q) (vx q))) * (r / dist_axis q z) ^ n)).
  { intros n. unfold RadialSeriesFacts.coef. rewrite <- legendre_leg by (apply RadialSeriesFacts.ratio_bound; assumption). rewrite along_polar by exact O.
    unfold Rdiv. rewrite Rpow_mult_distr, pow_inv. cbn [pow]. field. split; [apply pow_nonzero|]; lra. }
  generalize 8%nat. intros k. induction k as [|n IH]; cbn [RadialSeriesFacts.expansion]; [ring|]. rewrite IH, E. ring.
Qed.
(** error of the series of a unit charge *)
Definition series3d_error (z r : R) (q : vec3) : R :=
  1 / (4 * PI) * ((r / dist_axis q z) ^ 8 * ((dist_axis q z + r) / (dist_axis q z - r) ^ 2 + 24 / dist_axis q z) + 64e-15 / dist_axis q z).
Theorem point_series_error z r phi q : vx q <> 0 \/ vy q <> 0 -> 0 <= r < dist_axis q z ->
  Rabs (point_series z r phi q - potential_3d_point (V3 (r * cos phi) (r * sin phi) z) q) <= series3d_error z r q.
Proof.
  intros O Hr. pose proof (dist_axis_pos q z O) as PD. pose proof PI_RGT_0 as PP. pose proof (along_bound q z phi O) as AB. pose proof (slope_bounds q z O) as PS.
  rewrite point_kernel. unfold point_series, series3d_error.
  set (D := dist_axis q z) in *. set (y := along q phi) in *. set (s := slope q z) in *. set (t := phi - atan2 (vy q) (vx q)).
  assert (X : 0 <= r / D <= 1).
  { split; [apply Rmult_le_pos; [lra|apply Rlt_le, Rinv_0_lt_compat; exact PD]|]. apply (Rmult_le_reg_r D); [exact PD|]. unfold Rdiv. rewrite Rmult_assoc, Rinv_l by lra. lra. }
  set (x := r / D) in *.
  assert (G0 : G 0 y (D ^ 2) r = / sqrt (RadialSeriesFacts.len2 D y r)).
  { unfold G. cbn [gen_pair fst]. unfold Rdiv. rewrite Rmult_1_l. do 2 f_equal. unfold quadr, RadialSeriesFacts.len2. ring. }
  rewrite G0. pose proof (RadialSeriesFacts.expansion_error D y 7 r PD AB Hr) as E1. pose proof (point_expansion q z phi r O) as E2. fold D y s t x in E2. rewrite E2 in E1.
  pose proof (extra_terms s t x PS X) as E3. set (L := RadialSeriesFacts.expansion (fun n => legendre n (s * cos t)) 8 x) in *.
  assert (E4 : Rabs (sum_nu_m (fun nu m => rounding nu m * series_term s t x nu m) - sum_nu_m (series_term s t x)) <= 64e-15).
  { replace (sum_nu_m (fun nu m => rounding nu m * series_term s t x nu m) - sum_nu_m (series_term s t x)) with (sum_nu_m (fun nu m => (rounding nu m - 1) * series_term s t x nu m)).
    - apply Rle_trans with (sum_nu_m (fun _ _ => 2e-15)); [|rewrite sum_nu_m_const; lra]. apply sum_nu_m_abs. intros nu m Hn Hm. rewrite Rabs_mult.
      pose proof (factorial_value nu m Hn Hm) as F. fold (rounding nu m) in F. pose proof (series_term_bound s t x nu m PS (proj1 X)) as B. pose proof (pow_le_1 x (2 * nu + m) X) as B1.
      pose proof (Rabs_pos (rounding nu m - 1)). pose proof (Rabs_pos (series_term s t x nu m)). nra.
    - assert (Es : sum_nu_m (fun nu m => rounding nu m * series_term s t x nu m) = sum_nu_m (fun nu m => (rounding nu m - 1) * series_term s t x nu m + series_term s t x nu m)) by (apply sum_nu_m_ext; intros; ring).
      rewrite Es, sum_nu_m_plus. ring. }
  set (U := sum_nu_m (fun nu m => rounding nu m * series_term s t x nu m)) in *. set (V := sum_nu_m (series_term s t x)) in *. set (W := / sqrt (RadialSeriesFacts.len2 D y r)) in *.
  assert (PI4 : 0 < 1 / (4 * PI)) by (apply Rdiv_lt_0_compat; lra). assert (PiD : 0 < / D) by (apply Rinv_0_lt_compat; exact PD).
  replace (1 / (4 * PI) / D * U - 1 / (4 * PI) * W) with (1 / (4 * PI) * (/ D * (U - V) + / D * (V - L) + - (W - / D * L))) by (unfold Rdiv; ring).
  rewrite Rabs_mult, (Rabs_pos_eq (1 / (4 * PI))) by lra. apply Rmult_le_compat_l; [lra|].
  eapply Rle_trans; [apply Rabs_triang|]. rewrite Rabs_Ropp. eapply Rle_trans; [apply Rplus_le_compat; [apply Rabs_triang|exact E1]|].
  rewrite !Rabs_mult, (Rabs_pos_eq (/ D)) by lra.
  revert E4. generalize 64e-15. intros e E4.
  apply Rle_trans with (/ D * e + / D * (24 * x ^ 8) + x ^ 8 * (D + r) / (D - r) ^ 2).
  - apply Rplus_le_compat; [|right; reflexivity]. apply Rplus_le_compat; apply Rmult_le_compat_l; lra.
  - right. unfold Rdiv. ring.
Qed.
