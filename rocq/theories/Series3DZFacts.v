(** Truncation of the three-dimensional series: the axial component of the field. *)
From Coq Require Import Reals ZArith Lra Lia Psatz.
From Coquelicot Require Import Coquelicot.
From Verif Require Import Base BaseFacts Vec GeomModel PathModel PathOpsFacts OutwardFacts FieldModel SeriesModel SeriesFacts InterpFacts Field3DFacts Axial3DModel Axial3DFacts HarmonicFacts AxialTable.
From Verif Require Import AxialErrorFacts.
From Verif Require LegendreFacts RadialSeriesFacts GegenbauerFacts.
From Verif Require Import Props_Expansion Series3DFacts Series3DFieldFacts.
Local Open Scope R_scope.

(** ** The coefficients as functions of the slope *)
Lemma H_ex_derive n m (s : R) : ex_derive (H n m) s.
Proof.
  revert m. revert n. apply (GegenbauerFacts.pair_ind (fun n => forall m, ex_derive (H n m) s)).
  - intros m. apply (ex_derive_ext (K := R_AbsRing) (V := R_NormedModule) (fun _ => if (m =? 0)%nat then 1 else 0)); [intros; reflexivity|apply (ex_derive_const (K := R_AbsRing) (V := R_NormedModule))].
  - intros m. destruct (Nat.eq_dec m 1) as [->|N].
    + apply (ex_derive_ext (K := R_AbsRing) (V := R_NormedModule) (fun t => t)); [intros; reflexivity|apply ex_derive_id].
    + apply (ex_derive_ext (K := R_AbsRing) (V := R_NormedModule) (fun _ => 0)); [|apply (ex_derive_const (K := R_AbsRing) (V := R_NormedModule))]. intros t. unfold H. cbn. destruct (Nat.eqb_spec m 1); [lia|reflexivity].
  - intros n I1 I2 m. apply (ex_derive_ext (K := R_AbsRing) (V := R_NormedModule) (fun s => (2 * INR (S n) + 1) / INR (S (S n)) * (s * shift (fun j => H (S n) j s) m) - INR (S n) / INR (S (S n)) * H n m s)).
    { intros t. rewrite H_SS. req. field. apply not_0_INR. lia. }
    apply (ex_derive_minus (fun s => (2 * INR (S n) + 1) / INR (S (S n)) * (s * shift (fun j => H (S n) j s) m)) (fun s => INR (S n) / INR (S (S n)) * H n m s)).
    + apply (ex_derive_scal (fun s => s * shift (fun j => H (S n) j s) m)). apply (ex_derive_mult (fun s => s) (fun s => shift (fun j => H (S n) j s) m)); [apply ex_derive_id|].
      destruct m as [|[|j]]; cbn [shift].
      * apply (ex_derive_ext (K := R_AbsRing) (V := R_NormedModule) (fun s => / 2 * H (S n) 1 s)); [intros t; req; field|]. apply (ex_derive_scal (H (S n) 1)), I2.
      * apply (ex_derive_plus (H (S n) 0) (fun s => H (S n) 2 s / 2)); [apply I2|]. apply (ex_derive_ext (K := R_AbsRing) (V := R_NormedModule) (fun s => / 2 * H (S n) 2 s)); [intros t; req; field|]. apply (ex_derive_scal (H (S n) 2)), I2.
      * apply (ex_derive_ext (K := R_AbsRing) (V := R_NormedModule) (fun s => / 2 * (H (S n) (S j) s + H (S n) (S (S (S j))) s))); [intros t; req; field|]. apply (ex_derive_scal (fun s => H (S n) (S j) s + H (S n) (S (S (S j))) s)).
        apply (ex_derive_plus (H (S n) (S j)) (H (S n) (S (S (S j))))); apply I2.
    + apply (ex_derive_scal (H n m)), I1.
Qed.
Definition J (n m : nat) (s : R) : R := INR (S n) * H n m s + s * Derive (H n m) s.
Lemma J_parity n m s : Nat.odd (n + m) = true -> J n m s = 0.
Proof.
  intros P. unfold J. rewrite H_parity by exact P. rewrite (Derive_ext (H n m) (fun _ => 0)) by (intros t; apply H_parity; exact P). rewrite Derive_const. ring.
Qed.
Lemma J_high n m s : (n < m)%nat -> J n m s = 0.
Proof.
  intros P. unfold J. rewrite H_high by exact P. rewrite (Derive_ext (H n m) (fun _ => 0)) by (intros t; apply H_high; exact P). rewrite Derive_const. ring.
Qed.
Lemma fsum_slope n t N (s : R) : is_derive (fun s => fsum (fun m => H n m s) t N) s (fsum (fun m => Derive (H n m) s) t N).
Proof.
  induction N as [|N IH]; cbn [fsum]; [apply (is_derive_const (V := R_NormedModule))|].
  apply (is_derive_plus (fun s => fsum (fun m => H n m s) t N) (fun s => H n N s * cos (INR N * t))); [exact IH|].
  apply (is_derive_ext (fun s => cos (INR N * t) * H n N s)); [intros; req; ring|]. eapply is_derive_eq; [apply (is_derive_scal (H n N)), Derive_correct, H_ex_derive|]. req. ring.
Qed.
Lemma gegen_sum n x : Rabs x <= 1 -> gegen n x = x * dlegendre n x + INR (S n) * legendre n x.
Proof.
  intros Hx. destruct n as [|[|n]].
  - unfold gegen, dlegendre. rewrite GegenbauerFacts.geg_0, legendre_0. cbn [INR]. ring.
  - unfold dlegendre, gegen. rewrite GegenbauerFacts.geg_0, GegenbauerFacts.geg_1, legendre_1. cbn [INR]. ring.
  - cbn [dlegendre]. rewrite gegen_mult, gegen_SS by exact Hx. rewrite (S_INR (S (S n))). ring.
Qed.
Lemma cos_arg s t : 0 <= s <= 1 -> Rabs (s * cos t) <= 1.
Proof. intros Hs. rewrite Rabs_mult, (Rabs_pos_eq s) by lra. assert (Rabs (cos t) <= 1) by (apply Rabs_le, COS_bound). pose proof (Rabs_pos (cos t)). nra. Qed.
Lemma gegen_cos n s t : 0 <= s <= 1 -> gegen n (s * cos t) = fsum (fun m => J n m s) t (S n).
Proof.
  intros Hs. pose proof (cos_arg s t Hs) as B.
  assert (D : fsum (fun m => Derive (H n m) s) t (S n) = cos t * dlegendre n (s * cos t)).
  { pose proof (fsum_slope n t (S n) s) as D1. apply is_derive_unique in D1. rewrite <- D1. apply is_derive_unique.
    apply (is_derive_ext (fun s => legendre n (s * cos t))); [intros u; apply legendre_cos|].
    eapply is_derive_eq; [apply (is_derive_comp (legendre n) (fun s => s * cos t) s (dlegendre n (s * cos t)) (cos t)); [apply legendre_derive; exact B|auto_derive; [exact I|ring]]|].
    req. unfold scal. cbn. unfold mult. cbn. ring. }
  unfold J. rewrite (fsum_lin (fun m => H n m s) (fun m => Derive (H n m) s)), D, <- legendre_cos, gegen_sum by exact B. ring.
Qed.
Lemma gegen_bound n x : Rabs x <= 1 -> Rabs (gegen n x) <= INR (S n) * INR (S (S n)) / 2.
Proof. intros Hx. apply GegenbauerFacts.geg_bound, RadialSeriesFacts.cos_sin_unit, Hx. Qed.
Lemma J_bound n m s : 0 <= s <= 1 -> Rabs (J n m s) <= INR (S n) * INR (S (S n)).
Proof.
  intros Hs. set (g := INR (S n) * INR (S (S n))). assert (Pg : 0 < g) by (apply Rmult_lt_0_compat; apply lt_0_INR; lia).
  destruct (Nat.le_gt_cases m n) as [L|L]; [|rewrite J_high by exact L; rewrite Rabs_R0; lra].
  pose proof PI_RGT_0 as PP. pose proof (fsum_int (fun j => J n j s) m (S n) ltac:(lia)) as I.
  assert (B : Rabs (J n m s * period_weight m m) <= (2 * PI - 0) * (g / 2)).
  { apply (norm_RInt_le_const (V := R_NormedModule) (fun t => fsum (fun j => J n j s) t (S n) * cos (INR m * t)) 0 (2 * PI) _ (g / 2)); [lra| |exact I].
    intros t _. change (Rabs (fsum (fun j => J n j s) t (S n) * cos (INR m * t)) <= g / 2). rewrite <- gegen_cos, Rabs_mult by exact Hs.
    assert (C1 : Rabs (cos (INR m * t)) <= 1) by (apply Rabs_le, COS_bound). pose proof (gegen_bound n (s * cos t) (cos_arg s t Hs)) as L1. fold g in L1.
    pose proof (Rabs_pos (gegen n (s * cos t))). pose proof (Rabs_pos (cos (INR m * t))). nra. }
  rewrite Rabs_mult in B. pose proof (Rabs_pos (J n m s)) as P0.
  assert (W : PI <= Rabs (period_weight m m)).
  { unfold period_weight. rewrite Nat.eqb_refl. destruct (m =? 0)%nat; rewrite Rabs_pos_eq by lra; lra. }
  apply (Rmult_le_reg_r PI); [lra|]. nra.
Qed.
(** ** One charge *)
Definition lift_term (s t x : R) (nu m : nat) : R := J (2 * nu + m) m s * cos (INR m * t) * x ^ (2 * nu + m).
Lemma lift_term_bound s t x nu m : 0 <= s <= 1 -> 0 <= x -> Rabs (lift_term s t x nu m) <= INR (S (2 * nu + m)) * INR (S (S (2 * nu + m))) * x ^ (2 * nu + m).
Proof.
  intros Hs Hx. unfold lift_term. pose proof (pow_le x (2 * nu + m) Hx) as P. rewrite !Rabs_mult, (Rabs_pos_eq (x ^ _)) by exact P.
  apply Rmult_le_compat_r; [exact P|]. pose proof (J_bound (2 * nu + m) m s Hs) as B1. pose proof (Rabs_pos (J (2 * nu + m) m s)) as B2.
  assert (C : Rabs (cos (INR m * t)) <= 1) by (apply Rabs_le, COS_bound). pose proof (Rabs_pos (cos (INR m * t))). nra.
Qed.
Lemma lift_terms s t x : 0 <= s <= 1 ->
  sum_nu_m (fun nu m => if beyond nu m then 0 else lift_term s t x nu m) = RadialSeriesFacts.expansion (fun n => gegen n (s * cos t)) 8 x.
Proof.
  intros Hs. unfold RadialSeriesFacts.expansion. rewrite !gegen_cos by exact Hs. unfold sum_nu_m, arange, NU_MAX, M_MAX, beyond, lift_term.
  cbn [seq map Rsum fsum Nat.leb Nat.mul Nat.add].
  rewrite (J_parity 1 0), (J_parity 2 1), (J_parity 3 0), (J_parity 3 2), (J_parity 4 1), (J_parity 4 3), (J_parity 5 0), (J_parity 5 2), (J_parity 5 4), (J_parity 6 1), (J_parity 6 3), (J_parity 6 5), (J_parity 7 0), (J_parity 7 2), (J_parity 7 4), (J_parity 7 6) by reflexivity.
  ring.
Qed.
Lemma extra_lifts s t x : 0 <= s <= 1 -> 0 <= x <= 1 -> Rabs (sum_nu_m (lift_term s t x) - RadialSeriesFacts.expansion (fun n => gegen n (s * cos t)) 8 x) <= 1568 * x ^ 8.
Proof.
  intros Hs Hx. rewrite <- lift_terms by exact Hs.
  replace (sum_nu_m (lift_term s t x) - sum_nu_m (fun nu m => if beyond nu m then 0 else lift_term s t x nu m)) with (sum_nu_m (fun nu m => if beyond nu m then lift_term s t x nu m else 0)).
  - apply Rle_trans with (sum_nu_m (fun nu m => if beyond nu m then INR (S (2 * nu + m)) * INR (S (S (2 * nu + m))) * x ^ 8 else 0)).
    + apply sum_nu_m_abs. intros nu m _ _. unfold beyond. destruct (Nat.leb_spec 8 (2 * nu + m)) as [L|L]; [|rewrite Rabs_R0; lra].
      eapply Rle_trans; [apply lift_term_bound; [exact Hs|lra]|]. apply Rmult_le_compat_l; [apply Rmult_le_pos; apply pos_INR|]. apply pow_le_8; [exact Hx|exact L].
    + unfold sum_nu_m, arange, NU_MAX, M_MAX, beyond. cbn [seq map Rsum Nat.leb Nat.mul Nat.add]. rewrite !INR_IZR_INZ. cbn [Z.of_nat Pos.of_succ_nat Pos.succ]. lra.
  - enough (E : sum_nu_m (lift_term s t x) = sum_nu_m (fun nu m => (if beyond nu m then lift_term s t x nu m else 0) + (if beyond nu m then 0 else lift_term s t x nu m))) by (rewrite E, sum_nu_m_plus; ring).
    apply sum_nu_m_ext. intros nu m. destruct (beyond nu m); ring.
Qed.
Lemma rounded_lifts s t x : 0 <= s <= 1 -> 0 <= x <= 1 -> Rabs (sum_nu_m (fun nu m => rounding nu m * lift_term s t x nu m) - sum_nu_m (lift_term s t x)) <= 2368e-15.
Proof.
  intros Hs Hx.
  replace (sum_nu_m (fun nu m => rounding nu m * lift_term s t x nu m) - sum_nu_m (lift_term s t x)) with (sum_nu_m (fun nu m => (rounding nu m - 1) * lift_term s t x nu m)).
  - apply Rle_trans with (sum_nu_m (fun nu m => 1e-15 * (INR (S (2 * nu + m)) * INR (S (S (2 * nu + m)))))).
    + apply sum_nu_m_abs. intros nu m Hn Hm. rewrite Rabs_mult. pose proof (factorial_value nu m Hn Hm) as F. fold (rounding nu m) in F.
      apply Rmult_le_compat; [apply Rabs_pos|apply Rabs_pos|exact F|]. eapply Rle_trans; [apply lift_term_bound; [exact Hs|lra]|].
      pose proof (pow_le_1 x (2 * nu + m) Hx). assert (0 <= INR (S (2 * nu + m)) * INR (S (S (2 * nu + m)))) by (apply Rmult_le_pos; apply pos_INR). nra.
    + unfold sum_nu_m, arange, NU_MAX, M_MAX, beyond. cbn [seq map Rsum Nat.leb Nat.mul Nat.add]. rewrite !INR_IZR_INZ. cbn [Z.of_nat Pos.of_succ_nat Pos.succ]. lra.
  - assert (Es : sum_nu_m (fun nu m => rounding nu m * lift_term s t x nu m) = sum_nu_m (fun nu m => (rounding nu m - 1) * lift_term s t x nu m + lift_term s t x nu m)) by (apply sum_nu_m_ext; intros; ring).
    rewrite Es, sum_nu_m_plus. ring.
Qed.
(** ** The coefficients as functions of the height *)
Lemma dist_axis_derive q (z : R) : vx q <> 0 \/ vy q <> 0 -> is_derive (fun z => dist_axis q z) z (- (vz q - z) / dist_axis q z).
Proof.
  intros O. pose proof (dist_axis_pos q z O) as PD. pose proof (dist_axis_sqr q z) as SQ.
  assert (P : 0 < vx q * vx q + vy q * vy q + (vz q - z) * (vz q - z)) by (rewrite <- SQ; apply pow_lt; exact PD).
  unfold dist_axis. auto_derive; [unfold Rminus in P; lra|]. change (sqrt (vx q * vx q + vy q * vy q + (vz q + - z) * (vz q + - z))) with (dist_axis q z). fold (dist_axis q z). field. lra.
Qed.
Definition lift_coef (q : vec3) (z : R) (n m : nat) : R := 1 / (4 * PI) * ((vz q - z) * J n m (slope q z) / dist_axis q z ^ (n + 3)).
Lemma point_coef_derive q n m (z : R) : vx q <> 0 \/ vy q <> 0 -> is_derive (fun z => point_coef q z n m) z (lift_coef q z n m).
Proof.
  intros O. pose proof (dist_axis_pos q z O) as PD. pose proof PI_RGT_0 as PP. pose proof (dist_axis_derive q z O) as DD.
  set (D := fun z => dist_axis q z) in *. change (0 < D z) in PD.
  assert (DI : is_derive (fun z => / D z) z ((vz q - z) / D z ^ 3)).
  { eapply is_derive_eq; [apply (is_derive_inv D z _ DD); lra|]. req. change (dist_axis q z) with (D z). field. lra. }
  assert (DS : is_derive (fun z => slope q z) z (rho q * ((vz q - z) / D z ^ 3))) by (apply (is_derive_scal (fun z => / D z) z (rho q)); exact DI).
  pose proof (is_derive_comp (H n m) (fun z => slope q z) z _ _ (Derive_correct _ _ (H_ex_derive n m (slope q z))) DS) as DH.
  pose proof (is_derive_pow (fun z => / D z) (S n) z _ DI) as DP.
  pose proof (is_derive_scal _ z (1 / (4 * PI)) _ (is_derive_mult _ _ z _ _ DH DP Rmult_comm)) as DT.
  eapply is_derive_ext; [|eapply is_derive_eq; [exact DT|]].
  - intros t. change (1 / (4 * PI) * (H n m (slope q t) * (/ D t) ^ S n) = 1 / (4 * PI) * H n m (slope q t) / D t ^ S n). rewrite pow_inv. unfold Rdiv. ring.
  - req. unfold plus, mult, scal. cbn -[INR H J]. unfold mult. cbn -[INR H J]. unfold lift_coef, J. change (dist_axis q z) with (D z). rewrite !pow_inv.
    assert (SL : rho q = slope q z * D z) by (unfold slope; change (dist_axis q z) with (D z); field; lra). rewrite SL, pow_add. set (X := Derive (H n m) (slope q z)). set (Y := H n m (slope q z)). clearbody X Y.
    set (d := D z) in *. clearbody d. cbn [pow]. field. repeat split; try lra; apply pow_nonzero; lra.
Qed.
Definition trig (sine : bool) (m : nat) (q : vec3) : R := let mu := atan2 (vy q) (vx q) in if sine then sin (INR m * mu) else cos (INR m * mu).
Lemma coefficient_value sine z c nu m : (nu < 4)%nat -> (m < 8)%nat -> away_from_axis c ->
  axial_coefficient sine z c nu m = evaluate (fun q => rounding nu m * (point_coef q z (2 * nu + m) m * trig sine m q)) c.
Proof.
  intros Hn Hm Off. unfold axial_coefficient. apply evaluate_ext. intros x Hx jp Hjp. destruct (axial_term_value (snd jp) z nu m Hn Hm (Off x jp Hx Hjp)) as [E1 E2]. destruct sine; assumption.
Qed.
Lemma coefficient_derive sine (z : R) c nu m : (nu < 4)%nat -> (m < 8)%nat -> away_from_axis c ->
  is_derive (fun z => axial_coefficient sine z c nu m) z (evaluate (fun q => rounding nu m * (lift_coef q z (2 * nu + m) m * trig sine m q)) c).
Proof.
  intros Hn Hm Off. apply (is_derive_ext (fun z => evaluate (fun q => rounding nu m * (point_coef q z (2 * nu + m) m * trig sine m q)) c)); [intros t; symmetry; apply coefficient_value; assumption|].
  apply (evaluate_derive (fun z q => rounding nu m * (point_coef q z (2 * nu + m) m * trig sine m q))). intros x jp Hx Hjp. pose proof (point_coef_derive (snd jp) (2 * nu + m) m z (Off x jp Hx Hjp)) as D.
  set (w := trig sine m (snd jp)). set (f := rounding nu m). clearbody w f.
  pose proof (is_derive_scal (fun z => point_coef (snd jp) z (2 * nu + m) m) z (f * w) _ D) as DT.
  apply (is_derive_ext (fun z => f * w * point_coef (snd jp) z (2 * nu + m) m)); [intros t; req; ring|]. eapply is_derive_eq; [exact DT|]. req. ring.
Qed.
(** ** The derivative of the series *)
Definition point_lift (z r phi : R) (q : vec3) : R :=
  1 / (4 * PI) * (vz q - z) / dist_axis q z ^ 3 * sum_nu_m (fun nu m => rounding nu m * lift_term (slope q z) (phi - atan2 (vy q) (vx q)) (r / dist_axis q z) nu m).
Definition lift3d_error (z r : R) (q : vec3) : R :=
  let D := dist_axis q z in
  1 / (4 * PI) * Rabs (vz q - z) * ((r / D) ^ 8 * (45 * ((D + r) / D) ^ 2 / (D - r) ^ 3 + 1568 / D ^ 3) + 2368e-15 / D ^ 3).
Lemma point_lift_error z r phi q : vx q <> 0 \/ vy q <> 0 -> 0 <= r < dist_axis q z ->
  Rabs (point_lift z r phi q - 1 / (4 * PI) * ((vz q - z) / sqrt (RadialSeriesFacts.len2 (dist_axis q z) (along q phi) r) ^ 3)) <= lift3d_error z r q.
Proof.
  intros O Hr. pose proof (dist_axis_pos q z O) as PD. pose proof PI_RGT_0 as PP. pose proof (along_bound q z phi O) as AB. pose proof (slope_bounds q z O) as PS.
  unfold point_lift, lift3d_error. cbv zeta. set (t := phi - atan2 (vy q) (vx q)). pose proof (fun N => point_expansion3 q z phi r N O) as EX. fold t in EX.
  set (D := dist_axis q z) in *. set (y := along q phi) in *. set (s := slope q z) in *.
  assert (X : 0 <= r / D <= 1).
  { split; [apply Rmult_le_pos; [lra|apply Rlt_le, Rinv_0_lt_compat; exact PD]|]. apply (Rmult_le_reg_r D); [exact PD|]. unfold Rdiv. rewrite Rmult_assoc, Rinv_l by lra. lra. }
  set (x := r / D) in *.
  pose proof (GegenbauerFacts.expansion3_error D y 7 r PD AB Hr) as E8. fold x in E8. rewrite !INR_IZR_INZ in E8. cbn [Z.of_nat Pos.of_succ_nat Pos.succ] in E8. rewrite EX in E8. replace (9 * 10 / 2) with 45 in E8 by lra.
  pose proof (extra_lifts s t x PS X) as EE. pose proof (rounded_lifts s t x PS X) as ER.
  set (S8 := RadialSeriesFacts.expansion (fun n => gegen n (s * cos t)) 8 x) in *.
  set (P := sum_nu_m (fun nu m => rounding nu m * lift_term s t x nu m)) in *. set (Q := sum_nu_m (lift_term s t x)) in *.
  set (W := sqrt (RadialSeriesFacts.len2 D y r)) in *. set (w := vz q - z).
  assert (PI4 : 0 < 1 / (4 * PI)) by (apply Rdiv_lt_0_compat; lra). assert (PiD : 0 < / D ^ 3) by (apply Rinv_0_lt_compat, pow_lt; exact PD).
  replace (1 / (4 * PI) * w / D ^ 3 * P - 1 / (4 * PI) * (w / W ^ 3)) with (1 / (4 * PI) * (w * (/ D ^ 3 * (P - Q) + / D ^ 3 * (Q - S8) + - (/ W ^ 3 - / D ^ 3 * S8)))) by (unfold Rdiv; ring).
  rewrite Rabs_mult, (Rabs_mult w), (Rabs_pos_eq (1 / (4 * PI))), <- Rmult_assoc by lra. apply Rmult_le_compat_l; [apply Rmult_le_pos; [lra|apply Rabs_pos]|].
  revert ER. generalize 2368e-15. intros e ER.
  apply Rle_trans with (/ D ^ 3 * e + / D ^ 3 * (1568 * x ^ 8) + 45 * x ^ 8 * ((D + r) / D) ^ 2 / (D - r) ^ 3).
  - eapply Rle_trans; [apply Rabs_triang|]. rewrite Rabs_Ropp. apply Rplus_le_compat; [|exact E8]. eapply Rle_trans; [apply Rabs_triang|].
    rewrite !(Rabs_mult (/ D ^ 3)), (Rabs_pos_eq (/ D ^ 3)) by lra. apply Rplus_le_compat; apply Rmult_le_compat_l; lra.
  - right. unfold Rdiv. ring.
Qed.
