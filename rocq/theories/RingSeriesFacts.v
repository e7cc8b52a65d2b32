(** The potential of a charged ring and the radial series with exact axial derivatives (used by C80 and C81). *)
From Coq Require Import Reals ZArith Lra Lia Psatz.
From Coquelicot Require Import Coquelicot.
From Verif Require Import Base BaseFacts Vec GeomModel OutwardFacts FieldModel FieldFacts SeriesModel SeriesFacts InterpFacts
  EllipticSpec EllipticFacts RingModel RingFacts LoopFacts LegendreFacts RadialSeriesFacts.
Local Open Scope R_scope.

(** ** Averages of powers of the cosine *)
Definition cosint (n : nat) : R := RInt (fun t => cos t ^ n) 0 (2 * PI).
Lemma cos_pow_continuous n t : continuous (fun t => cos t ^ n) t.
Proof. apply (ex_derive_continuous (V := R_NormedModule)). auto_derive. exact I. Qed.
Lemma cosint_0 : cosint 0 = 2 * PI.
Proof. unfold cosint. rewrite (RInt_eq _ (fun _ => 1)) by reflexivity. rewrite RInt_const_R. ring. Qed.
Lemma cosint_1 : cosint 1 = 0.
Proof.
  unfold cosint. rewrite (RInt_eq _ cos) by (intros; ring). apply is_RInt_unique.
  replace 0 with (minus (sin (2 * PI)) (sin 0)) at 2 by (rewrite sin_2PI, sin_0; unfold minus, plus, opp; cbn; ring).
  apply (is_RInt_derive (V := R_CompleteNormedModule) sin cos); [intros x _; apply is_derive_sin|intros x _; apply continuous_cos].
Qed.
Lemma cosint_SS n : cosint (S (S n)) = INR (S n) / INR (S (S n)) * cosint n.
Proof.
  assert (E : INR (S (S n)) * cosint (S (S n)) - INR (S n) * cosint n = 0).
  { unfold cosint.
    transitivity (RInt (fun t => INR (S (S n)) * cos t ^ S (S n) + - INR (S n) * cos t ^ n) 0 (2 * PI)).
    - rewrite RInt_lin by (intros; apply cos_pow_continuous). rint_gen. ring.
    - apply is_RInt_unique.
      replace 0 with (minus (sin (2 * PI) * cos (2 * PI) ^ S n) (sin 0 * cos 0 ^ S n)) at 2 by (rewrite sin_2PI, sin_0; unfold minus, plus, opp; cbn -[pow]; ring).
      apply (is_RInt_derive (V := R_CompleteNormedModule) (fun t => sin t * cos t ^ S n)).
      + intros x _. auto_derive; [exact I|]. change (Init.Nat.pred (S n)) with n. pose proof (sin2_cos2 x) as SC. unfold Rsqr in SC.
        change (match n with 0%nat => 1 | S _ => INR n + 1 end) with (INR (S n)). transitivity (cos x * cos x ^ S n - INR (S n) * (sin x * sin x) * cos x ^ n); [rewrite <- !tech_pow_Rmult; generalize (cos x ^ n) as u, (INR (S n)) as v; intros; ring|].
        replace (sin x * sin x) with (1 - cos x * cos x) by lra. rewrite (S_INR (S n)), <- !tech_pow_Rmult. generalize (cos x ^ n) as u, (INR (S n)) as v; intros; ring.
      + intros x _. apply (ex_derive_continuous (V := R_NormedModule)). auto_derive. exact I. }
  pose proof (INR_S_pos (S n)) as P. apply (Rmult_eq_reg_l (INR (S (S n)))); [|lra]. field_simplify; [lra|lra].
Qed.
Fixpoint cos_average (a : nat -> R) (N : nat) : R := match N with 0%nat => 0 | S n => cos_average a n + a n * cosint n end.
Lemma expansion_continuous a N t : continuous (fun t => expansion a N (cos t)) t.
Proof.
  induction N as [|n IH]; [apply continuous_const|]. cbn [expansion]. apply (continuous_plus (V := R_NormedModule) (fun t => expansion a n (cos t)) (fun t => a n * cos t ^ n)); [exact IH|].
  apply (ex_derive_continuous (V := R_NormedModule)). auto_derive. exact I.
Qed.
Lemma expansion_average a N : RInt (fun t => expansion a N (cos t)) 0 (2 * PI) = cos_average a N.
Proof.
  induction N as [|n IH]; [cbn [cos_average]; rewrite (RInt_eq _ (fun _ => 0)) by reflexivity; rewrite RInt_const_R; req; ring|]. cbn [expansion cos_average].
  rewrite (RInt_eq _ (fun t => 1 * expansion a n (cos t) + a n * cos t ^ n)) by (intros; req; ring).
  rewrite RInt_lin by (intros; first [apply expansion_continuous|apply cos_pow_continuous]). rewrite IH. fold (cosint n). rint_gen. ring.
Qed.

(** ** The coefficients *)
Section Coefficients.
  Variables (D y : R).
  Hypothesis (HD : 0 < D) (Hy : Rabs y <= D).
  Lemma coef_next n : coef D y (S (S n)) = ((2 * INR (S n) + 1) * y * coef D y (S n) - INR (S n) * coef D y n) / (D ^ 2 * INR (S (S n))).
  Proof. pose proof (coef_rec D y n HD Hy) as E. pose proof (INR_S_pos (S n)). rewrite <- E. field. split; lra. Qed.
  Ltac step := rewrite coef_next; cbn [INR].
  Lemma coef_2 : coef D y 2 = (3 * y ^ 2 - D ^ 2) / (2 * D ^ 5).
  Proof. step. rewrite coef_1, coef_0 by lra. field. lra. Qed.
  Lemma coef_3 : coef D y 3 = (5 * y ^ 3 - 3 * D ^ 2 * y) / (2 * D ^ 7).
  Proof. step. rewrite coef_2, coef_1 by lra. field. lra. Qed.
  Lemma coef_4 : coef D y 4 = (35 * y ^ 4 - 30 * D ^ 2 * y ^ 2 + 3 * D ^ 4) / (8 * D ^ 9).
  Proof. step. rewrite coef_3, coef_2 by lra. field. lra. Qed.
  Lemma coef_5 : coef D y 5 = (63 * y ^ 5 - 70 * D ^ 2 * y ^ 3 + 15 * D ^ 4 * y) / (8 * D ^ 11).
  Proof. step. rewrite coef_4, coef_3 by lra. field. lra. Qed.
  Lemma coef_6 : coef D y 6 = (231 * y ^ 6 - 315 * D ^ 2 * y ^ 4 + 105 * D ^ 4 * y ^ 2 - 5 * D ^ 6) / (16 * D ^ 13).
  Proof. step. rewrite coef_5, coef_4 by lra. field. lra. Qed.
  Lemma coef_7 : coef D y 7 = (429 * y ^ 7 - 693 * D ^ 2 * y ^ 5 + 315 * D ^ 4 * y ^ 3 - 35 * D ^ 6 * y) / (16 * D ^ 15).
  Proof. step. rewrite coef_6, coef_5 by lra. field. lra. Qed.
  Lemma coef_8 : coef D y 8 = (6435 * y ^ 8 - 12012 * D ^ 2 * y ^ 6 + 6930 * D ^ 4 * y ^ 4 - 1260 * D ^ 6 * y ^ 2 + 35 * D ^ 8) / (128 * D ^ 17).
  Proof. step. rewrite coef_7, coef_6 by lra. field. lra. Qed.
  Lemma coef_9 : coef D y 9 = (12155 * y ^ 9 - 25740 * D ^ 2 * y ^ 7 + 18018 * D ^ 4 * y ^ 5 - 4620 * D ^ 6 * y ^ 3 + 315 * D ^ 8 * y) / (128 * D ^ 19).
  Proof. step. rewrite coef_8, coef_7 by lra. field. lra. Qed.
End Coefficients.

(** as polynomials in cos phi, for y = r cos phi *)
Definition cos_coef (D r : R) (n k : nat) : R := nth k (nth n [
    [1 * D ^ 0 * r ^ 0 / (1 * D ^ 1)];
    [0; 1 * D ^ 0 * r ^ 1 / (1 * D ^ 3)];
    [-1 * D ^ 2 * r ^ 0 / (2 * D ^ 5); 0; 3 * D ^ 0 * r ^ 2 / (2 * D ^ 5)];
    [0; -3 * D ^ 2 * r ^ 1 / (2 * D ^ 7); 0; 5 * D ^ 0 * r ^ 3 / (2 * D ^ 7)];
    [3 * D ^ 4 * r ^ 0 / (8 * D ^ 9); 0; -30 * D ^ 2 * r ^ 2 / (8 * D ^ 9); 0; 35 * D ^ 0 * r ^ 4 / (8 * D ^ 9)];
    [0; 15 * D ^ 4 * r ^ 1 / (8 * D ^ 11); 0; -70 * D ^ 2 * r ^ 3 / (8 * D ^ 11); 0; 63 * D ^ 0 * r ^ 5 / (8 * D ^ 11)];
    [-5 * D ^ 6 * r ^ 0 / (16 * D ^ 13); 0; 105 * D ^ 4 * r ^ 2 / (16 * D ^ 13); 0; -315 * D ^ 2 * r ^ 4 / (16 * D ^ 13); 0; 231 * D ^ 0 * r ^ 6 / (16 * D ^ 13)];
    [0; -35 * D ^ 6 * r ^ 1 / (16 * D ^ 15); 0; 315 * D ^ 4 * r ^ 3 / (16 * D ^ 15); 0; -693 * D ^ 2 * r ^ 5 / (16 * D ^ 15); 0; 429 * D ^ 0 * r ^ 7 / (16 * D ^ 15)];
    [35 * D ^ 8 * r ^ 0 / (128 * D ^ 17); 0; -1260 * D ^ 6 * r ^ 2 / (128 * D ^ 17); 0; 6930 * D ^ 4 * r ^ 4 / (128 * D ^ 17); 0; -12012 * D ^ 2 * r ^ 6 / (128 * D ^ 17); 0; 6435 * D ^ 0 * r ^ 8 / (128 * D ^ 17)];
    [0; 315 * D ^ 8 * r ^ 1 / (128 * D ^ 19); 0; -4620 * D ^ 6 * r ^ 3 / (128 * D ^ 19); 0; 18018 * D ^ 4 * r ^ 5 / (128 * D ^ 19); 0; -25740 * D ^ 2 * r ^ 7 / (128 * D ^ 19); 0; 12155 * D ^ 0 * r ^ 9 / (128 * D ^ 19)]] []) 0.
Lemma cos_coef_eq D r c n : 0 < D -> Rabs (r * c) <= D -> (n <= 9)%nat -> coef D (r * c) n = expansion (cos_coef D r n) 10 c.
Proof.
  intros HD Hy Hn. do 10 (destruct n as [|n]; [cbn [expansion cos_coef nth]; unfold cos_coef; cbn [nth]; rewrite ?coef_0, ?coef_1, ?coef_2, ?coef_3, ?coef_4, ?coef_5, ?coef_6, ?coef_7, ?coef_8, ?coef_9 by (assumption || lra); field; lra|]). lia.
Qed.
Lemma coef_average D r n : 0 < D -> Rabs r <= D -> (n <= 9)%nat -> RInt (fun t => coef D (r * cos t) n) 0 (2 * PI) = cos_average (cos_coef D r n) 10.
Proof.
  intros HD Hr Hn. rewrite <- expansion_average. apply RInt_eq. intros t. apply cos_coef_eq; [exact HD| |exact Hn].
  rewrite Rabs_mult. pose proof (Rabs_pos r). assert (Rabs (cos t) <= 1) by (apply Rabs_le, COS_bound). nra.
Qed.
(** the whole truncated series, averaged over a turn *)
Lemma series_average D r w rho : 0 < D -> D ^ 2 = w ^ 2 + r ^ 2 ->
  cos_average (fun k => expansion (fun n => cos_coef D r n k) 10 rho) 10 =
  2 * PI * potential_series (fun n => INR (fact n) * coef D w n) rho.
Proof.
  intros HD HE. assert (Hw : Rabs w <= D) by (apply Rabs_le; split; nra).
  unfold potential_series. rewrite coef_0, coef_2, coef_4, coef_6, coef_8 by assumption.
  cbn [cos_average expansion]. unfold cos_coef. cbn [nth]. rewrite !cosint_SS, cosint_0, cosint_1.
  assert (F2 : INR (fact 2) = 2) by (rewrite INR_IZR_INZ; apply f_equal; reflexivity). assert (F4 : INR (fact 4) = 24) by (rewrite INR_IZR_INZ; apply f_equal; reflexivity).
  assert (F6 : INR (fact 6) = 720) by (rewrite INR_IZR_INZ; apply f_equal; reflexivity). assert (F8 : INR (fact 8) = 40320) by (rewrite INR_IZR_INZ; apply f_equal; reflexivity).
  rewrite F2, F4, F6, F8. change (INR (fact 0)) with 1. cbn [INR]. clear F2 F4 F6 F8.
  assert (ER : r ^ 2 = D ^ 2 - w ^ 2) by lra.
  replace (r ^ 4) with ((D ^ 2 - w ^ 2) ^ 2) by (rewrite <- ER; ring). replace (r ^ 6) with ((D ^ 2 - w ^ 2) ^ 3) by (rewrite <- ER; ring). replace (r ^ 8) with ((D ^ 2 - w ^ 2) ^ 4) by (rewrite <- ER; ring). rewrite ER.
  field. lra.
Qed.
Lemma expansion_ext a b N t : (forall n, (n < N)%nat -> a n = b n) -> expansion a N t = expansion b N t.
Proof. induction N as [|n IH]; intros H; [reflexivity|]. cbn [expansion]. rewrite IH, H by (intros; try apply H; lia). reflexivity. Qed.
Lemma expansion_plus a b N t : expansion (fun n => a n + b n) N t = expansion a N t + expansion b N t.
Proof. induction N as [|n IH]; cbn [expansion]; [ring|]. rewrite IH. ring. Qed.
Lemma expansion_scale a k N t : expansion (fun n => a n * k) N t = expansion a N t * k.
Proof. induction N as [|n IH]; cbn [expansion]; [ring|]. rewrite IH. ring. Qed.
Lemma expansion_zero N t : expansion (fun _ => 0) N t = 0.
Proof. induction N as [|n IH]; cbn [expansion]; [ring|]. rewrite IH. ring. Qed.
Lemma expansion_exchange (A : nat -> nat -> R) N K s c : expansion (fun n => expansion (A n) K c) N s = expansion (fun k => expansion (fun n => A n k) N s) K c.
Proof.
  induction K as [|k IH]; cbn [expansion]; [apply expansion_zero|].
  rewrite expansion_plus, IH, expansion_scale. reflexivity.
Qed.

(** ** The potential of a ring *)
Lemma ring_D_coef r n w : 0 < r -> ring_D r n w = (-1) ^ n * INR (fact n) * coef (norm_2d w r) w n.
Proof.
  intros Hr. pose proof (norm_2d_pos w r ltac:(lra)) as P. rewrite ring_D_leg by exact P. unfold coef.
  assert (E : r / norm_2d w r = sqrt (1 - (w / norm_2d w r) ^ 2)).
  { replace (1 - (w / norm_2d w r) ^ 2) with (Rsqr (r / norm_2d w r)) by (pose proof (unit_circle w r P); rewrite Rsqr_pow2; lra). rewrite sqrt_Rsqr; [reflexivity|]. apply Rmult_le_pos; [lra|apply Rlt_le, Rinv_0_lt_compat; exact P]. }
  rewrite E. unfold Rdiv. ring.
Qed.
Lemma potential_series_ext d d' rho : (forall n, (n < 9)%nat -> Nat.even n = true -> d n = d' n) -> potential_series d rho = potential_series d' rho.
Proof. intros H. unfold potential_series. rewrite (H 0%nat), (H 2%nat), (H 4%nat), (H 6%nat), (H 8%nat) by (lia || reflexivity). reflexivity. Qed.
Lemma ring_series_average r w rho : 0 < r -> 
  RInt (fun t => expansion (coef (norm_2d w r) (r * cos t)) 10 rho) 0 (2 * PI) = 2 * PI * potential_series (fun n => ring_D r n w) rho.
Proof.
  intros Hr. pose proof (norm_2d_pos w r ltac:(lra)) as P. pose proof (norm_2d_sqr w r) as E. set (D := norm_2d w r) in *.
  assert (HrD : Rabs r <= D) by (apply Rabs_le; split; nra).
  rewrite (potential_series_ext _ (fun n => INR (fact n) * coef D w n)).
  2: { intros n Hn Ev. rewrite ring_D_coef by exact Hr. fold D. apply Nat.even_spec in Ev. destruct Ev as (k & ->). rewrite pow_1_even. ring. }
  rewrite <- (series_average D r w rho P E), <- expansion_average. apply RInt_eq. intros t. rewrite <- expansion_exchange. apply expansion_ext. intros n Hn.
  apply cos_coef_eq; [exact P| |lia]. rewrite Rabs_mult. pose proof (Rabs_pos r). assert (Rabs (cos t) <= 1) by (apply Rabs_le, COS_bound). nra.
Qed.
Lemma RInt_abs_bound (f : R -> R) (K a b : R) : a <= b -> (forall t, continuous f t) -> (forall t, Rabs (f t) <= K) -> Rabs (RInt f a b) <= (b - a) * K.
Proof. intros Hab C H. apply abs_RInt_le_const; [exact Hab|apply cont_ex_RInt, C|intros t _; apply H]. Qed.
Lemma coef_continuous D r n t : 0 < D -> Rabs r <= D -> (n <= 9)%nat -> continuous (fun t => coef D (r * cos t) n) t.
Proof.
  intros HD Hr Hn. apply (continuous_ext (fun t => expansion (cos_coef D r n) 10 (cos t))); [|apply expansion_continuous]. intros x. symmetry. apply cos_coef_eq; [exact HD| |exact Hn].
  rewrite Rabs_mult. pose proof (Rabs_pos r). assert (Rabs (cos x) <= 1) by (apply Rabs_le, COS_bound). nra.
Qed.
Lemma expansion_cos_continuous D r rho t : 0 < D -> Rabs r <= D -> continuous (fun t => expansion (coef D (r * cos t)) 10 rho) t.
Proof.
  intros HD Hr. apply (continuous_ext (fun t => expansion (fun k => expansion (fun n => cos_coef D r n k) 10 rho) 10 (cos t))); [|apply expansion_continuous].
  intros x. rewrite <- expansion_exchange. apply expansion_ext. intros n Hn. symmetry. apply cos_coef_eq; [exact HD| |lia].
  rewrite Rabs_mult. pose proof (Rabs_pos r). assert (Rabs (cos x) <= 1) by (apply Rabs_le, COS_bound). nra.
Qed.
Theorem ring_series_error (p : vec3) (r z : R) : 0 < r ->
  let w := vz p - z in let rho := norm_2d (vx p) (vy p) in let D := norm_2d w r in rho < D ->
  Rabs (RInt (fun phi => r * potential_3d_point p (circle r z phi)) 0 (2 * PI) - r / 2 * potential_series (fun n => ring_D r n w) rho) <= r / 2 * ((rho / D) ^ 10 * (D + rho) / (D - rho) ^ 2).
Proof.
  intros Hr w rho D Hlt. pose proof PI_RGT_0 as Hpi. assert (P : 0 < D) by (apply norm_2d_pos; lra). pose proof (norm_2d_sqr w r) as E. fold D in E.
  assert (Hrho : 0 <= rho) by apply norm_2d_nonneg. assert (HrD : Rabs r <= D) by (apply Rabs_le; split; nra).
  assert (Hcos : forall t, Rabs (r * cos t) <= D). { intros t. rewrite Rabs_mult. pose proof (Rabs_pos r). assert (Rabs (cos t) <= 1) by (apply Rabs_le, COS_bound). nra. }
  set (f := fun t => / sqrt (len2 D (r * cos t) rho)).
  assert (Cf : forall t, continuous f t).
  { intros t. unfold f. apply (ex_derive_continuous (V := R_NormedModule)). pose proof (len2_pos D (r * cos t) rho P (Hcos t) ltac:(lra)) as L. unfold len2 in *. auto_derive. cbn [pow] in *.
    split; [lra|]. split; [|exact I]. apply Rgt_not_eq, sqrt_lt_R0. lra. }
  destruct (polar (vx p) (vy p)) as (psi & E1 & E2). fold rho in E1, E2.
  assert (EI : RInt (fun phi => r * potential_3d_point p (circle r z phi)) 0 (2 * PI) = r / (4 * PI) * RInt f 0 (2 * PI)).
  { rewrite <- RInt_scale by exact Cf.
    rewrite <- (Rplus_0_l (2 * PI)) at 2. rewrite <- (turn_shift (fun t => r / (4 * PI) * f t) psi 0).
    - apply RInt_eq. intros phi. unfold potential_3d_point, f.
      assert (En : norm (vsub (circle r z phi) p) = sqrt (len2 D (r * cos (phi - psi)) rho)).
      { unfold norm, vsub, circle. cbn [vx vy vz]. f_equal. unfold len2. rewrite E, cos_minus. rewrite E1, E2.
        pose proof (sin2_cos2 phi) as S1. pose proof (sin2_cos2 psi) as S2. unfold Rsqr in *. unfold w.
        transitivity (r ^ 2 * (sin phi * sin phi + cos phi * cos phi) + rho ^ 2 * (sin psi * sin psi + cos psi * cos psi) - 2 * r * rho * (cos phi * cos psi + sin phi * sin psi) + (z - vz p) ^ 2); [ring|].
        rewrite S1, S2. ring. }
      rewrite En. pose proof (len2_pos D (r * cos (phi - psi)) rho P (Hcos _) ltac:(lra)) as L. req. field. split; [apply Rgt_not_eq, sqrt_lt_R0; exact L|lra].
    - intros t. apply (continuous_scal_r (K := R_AbsRing) (V := R_NormedModule) (r / (4 * PI)) f). apply Cf.
    - intros x. unfold f. rewrite cos_turn. reflexivity. }
  rewrite EI. pose proof (ring_series_average r w rho Hr) as EA. fold D in EA.
  set (g := fun t => expansion (coef D (r * cos t)) 10 rho) in EA. assert (Cg : forall t, continuous g t) by (intros t; apply expansion_cos_continuous; assumption).
  set (K := (rho / D) ^ 10 * (D + rho) / (D - rho) ^ 2).
  assert (B : Rabs (RInt (fun t => 1 * f t + -1 * g t) 0 (2 * PI)) <= (2 * PI - 0) * K).
  { apply RInt_abs_bound; [lra| |].
    - intros t. apply (continuous_plus (V := R_NormedModule) (fun t => 1 * f t) (fun t => -1 * g t)); apply (continuous_scal_r (K := R_AbsRing) (V := R_NormedModule)); [apply Cf|apply Cg].
    - intros t. replace (1 * f t + -1 * g t) with (f t - g t) by ring. apply (expansion_error D (r * cos t) 9 rho P (Hcos t)). lra. }
  rewrite RInt_lin in B by assumption. rewrite EA in B. set (I := RInt f 0 (2 * PI)) in *. clearbody I.
  set (V := potential_series (fun n => ring_D r n w) rho) in *. clearbody V K.
  replace (r / (4 * PI) * I - r / 2 * V) with (r / (4 * PI) * (1 * I + -1 * (2 * PI * V))) by (field; lra).
  assert (Q : 0 < r / (4 * PI)) by (apply Rdiv_lt_0_compat; lra). rewrite Rabs_mult, (Rabs_pos_eq (r / (4 * PI))) by lra.
  apply Rle_trans with (r / (4 * PI) * ((2 * PI - 0) * K)); [apply Rmult_le_compat_l; [lra|exact B]|]. right. field. lra.
Qed.
