(** The field of charged rings and current loops and the radial series of the field with exact axial derivatives (used by C82 and C83). *)
From Coq Require Import Reals ZArith Lra Lia Psatz.
From Coquelicot Require Import Coquelicot.
From Verif Require Import Base BaseFacts Vec GeomModel OutwardFacts FieldModel FieldFacts SeriesModel SeriesFacts InterpFacts
  EllipticSpec EllipticFacts RingModel RingFacts LoopFacts LegendreFacts RadialSeriesFacts RingSeriesFacts GegenbauerFacts.
Local Open Scope R_scope.

(** ** The coefficients *)
Section Coefficients.
  Variables (D y : R).
  Hypothesis (HD : 0 < D) (Hy : Rabs y <= D).
  Lemma coef3_next n : coef3 D y (S (S n)) = ((2 * INR (S n) + 3) * y * coef3 D y (S n) - (INR (S n) + 2) * coef3 D y n) / (D ^ 2 * INR (S (S n))).
  Proof. pose proof (coef3_rec D y n HD Hy) as E. pose proof (INR_S_pos (S n)). rewrite <- E. field. split; lra. Qed.
  Ltac step := rewrite coef3_next; cbn [INR].
  Lemma coef3_2 : coef3 D y 2 = (15 * y ^ 2 * D ^ 0 + -3 * y ^ 0 * D ^ 2) / (2 * D ^ 7).
  Proof. step. rewrite coef3_1, coef3_0 by lra. field. lra. Qed.
  Lemma coef3_3 : coef3 D y 3 = (35 * y ^ 3 * D ^ 0 + -15 * y ^ 1 * D ^ 2) / (2 * D ^ 9).
  Proof. step. rewrite coef3_2, coef3_1 by lra. field. lra. Qed.
  Lemma coef3_4 : coef3 D y 4 = (315 * y ^ 4 * D ^ 0 + -210 * y ^ 2 * D ^ 2 + 15 * y ^ 0 * D ^ 4) / (8 * D ^ 11).
  Proof. step. rewrite coef3_3, coef3_2 by lra. field. lra. Qed.
  Lemma coef3_5 : coef3 D y 5 = (693 * y ^ 5 * D ^ 0 + -630 * y ^ 3 * D ^ 2 + 105 * y ^ 1 * D ^ 4) / (8 * D ^ 13).
  Proof. step. rewrite coef3_4, coef3_3 by lra. field. lra. Qed.
  Lemma coef3_6 : coef3 D y 6 = (3003 * y ^ 6 * D ^ 0 + -3465 * y ^ 4 * D ^ 2 + 945 * y ^ 2 * D ^ 4 + -35 * y ^ 0 * D ^ 6) / (16 * D ^ 15).
  Proof. step. rewrite coef3_5, coef3_4 by lra. field. lra. Qed.
  Lemma coef3_7 : coef3 D y 7 = (6435 * y ^ 7 * D ^ 0 + -9009 * y ^ 5 * D ^ 2 + 3465 * y ^ 3 * D ^ 4 + -315 * y ^ 1 * D ^ 6) / (16 * D ^ 17).
  Proof. step. rewrite coef3_6, coef3_5 by lra. field. lra. Qed.
End Coefficients.
(** as polynomials in cos phi, for y = r cos phi *)
Definition cos_coef3 (D r : R) (n k : nat) : R := nth k (nth n [
    [1 * D ^ 0 * r ^ 0 / (1 * D ^ 3)];
    [0; 3 * D ^ 0 * r ^ 1 / (1 * D ^ 5)];
    [-3 * D ^ 2 * r ^ 0 / (2 * D ^ 7); 0; 15 * D ^ 0 * r ^ 2 / (2 * D ^ 7)];
    [0; -15 * D ^ 2 * r ^ 1 / (2 * D ^ 9); 0; 35 * D ^ 0 * r ^ 3 / (2 * D ^ 9)];
    [15 * D ^ 4 * r ^ 0 / (8 * D ^ 11); 0; -210 * D ^ 2 * r ^ 2 / (8 * D ^ 11); 0; 315 * D ^ 0 * r ^ 4 / (8 * D ^ 11)];
    [0; 105 * D ^ 4 * r ^ 1 / (8 * D ^ 13); 0; -630 * D ^ 2 * r ^ 3 / (8 * D ^ 13); 0; 693 * D ^ 0 * r ^ 5 / (8 * D ^ 13)];
    [-35 * D ^ 6 * r ^ 0 / (16 * D ^ 15); 0; 945 * D ^ 4 * r ^ 2 / (16 * D ^ 15); 0; -3465 * D ^ 2 * r ^ 4 / (16 * D ^ 15); 0; 3003 * D ^ 0 * r ^ 6 / (16 * D ^ 15)];
    [0; -315 * D ^ 6 * r ^ 1 / (16 * D ^ 17); 0; 3465 * D ^ 4 * r ^ 3 / (16 * D ^ 17); 0; -9009 * D ^ 2 * r ^ 5 / (16 * D ^ 17); 0; 6435 * D ^ 0 * r ^ 7 / (16 * D ^ 17)]] []) 0.
Lemma cos_coef3_eq D r c n : 0 < D -> Rabs (r * c) <= D -> (n <= 7)%nat -> coef3 D (r * c) n = expansion (cos_coef3 D r n) 8 c.
Proof.
  intros HD Hy Hn. do 8 (destruct n as [|n]; [cbn [expansion cos_coef3 nth]; unfold cos_coef3; cbn [nth]; rewrite ?coef3_0, ?coef3_1, ?coef3_2, ?coef3_3, ?coef3_4, ?coef3_5, ?coef3_6, ?coef3_7 by (assumption || lra); field; lra|]). lia.
Qed.
Lemma cos_le D r t : Rabs r <= D -> Rabs (r * cos t) <= D.
Proof. intros H. rewrite Rabs_mult. pose proof (Rabs_pos r). assert (Rabs (cos t) <= 1) by (apply Rabs_le, COS_bound). nra. Qed.
(** the truncated expansion as a polynomial in cos phi *)
Definition turned (D r : R) (N : nat) (rho : R) (k : nat) : R := expansion (fun n => cos_coef3 D r n k) N rho.
Lemma turned_eq D r N rho t : 0 < D -> Rabs r <= D -> (N <= 8)%nat -> expansion (coef3 D (r * cos t)) N rho = expansion (turned D r N rho) 8 (cos t).
Proof.
  intros HD Hr HN. unfold turned. rewrite <- expansion_exchange. apply expansion_ext. intros n Hn. apply cos_coef3_eq; [exact HD|apply cos_le; exact Hr|lia].
Qed.
(** the average of (u + v cos) times a polynomial in cos *)
Fixpoint cos_average1 (a : nat -> R) (N : nat) : R := match N with 0%nat => 0 | S n => cos_average1 a n + a n * cosint (S n) end.
Lemma moment_continuous a N (u v t : R) : continuous (fun t => (u + v * cos t) * expansion a N (cos t)) t.
Proof.
  apply (continuous_mult (K := R_AbsRing) (fun t => u + v * cos t) (fun t => expansion a N (cos t))); [|apply expansion_continuous].
  apply (ex_derive_continuous (V := R_NormedModule)). auto_derive. exact I.
Qed.
Lemma expansion_moment a N u v : RInt (fun t => (u + v * cos t) * expansion a N (cos t)) 0 (2 * PI) = u * cos_average a N + v * cos_average1 a N.
Proof.
  induction N as [|n IH].
  - cbn [cos_average cos_average1]. rewrite (RInt_eq _ (fun _ => 0)) by (intros; cbn [expansion]; ring). rewrite RInt_const_R. req. ring.
  - cbn [expansion cos_average cos_average1].
    rewrite (RInt_eq _ (fun t => 1 * ((u + v * cos t) * expansion a n (cos t)) + 1 * (u * a n * cos t ^ n + v * a n * cos t ^ S n))) by (intros; cbn [pow]; req; ring).
    rewrite RInt_lin.
    + rewrite IH, RInt_lin by (intros; apply cos_pow_continuous). fold (cosint n) (cosint (S n)). rint_gen. ring.
    + intros t. apply moment_continuous.
    + intros t. apply (ex_derive_continuous (V := R_NormedModule)). auto_derive. exact I.
Qed.

(** ** The two components of the series *)
Definition fs_r (d : nat -> R) (r : R) : R := 0.5 * (d 2%nat - r ^ 2 / 8 * d 4%nat + r ^ 4 / 192 * d 6%nat - r ^ 6 / 9216 * d 8%nat).
Definition fs_z (d : nat -> R) (r : R) : R := - d 1%nat + r ^ 2 / 4 * d 3%nat - r ^ 4 / 64 * d 5%nat + r ^ 6 / 2304 * d 7%nat.
Lemma field_series_parts d p : field_series d p = V3 (vx p * fs_r d (norm_2d (vx p) (vy p))) (vy p * fs_r d (norm_2d (vx p) (vy p))) (fs_z d (norm_2d (vx p) (vy p))).
Proof. reflexivity. Qed.
Lemma fs_r_ext d d' rho : (forall n, (0 < n < 9)%nat -> d n = d' n) -> fs_r d rho = fs_r d' rho.
Proof. intros H. unfold fs_r. rewrite (H 2%nat), (H 4%nat), (H 6%nat), (H 8%nat) by lia. reflexivity. Qed.
Lemma fs_z_ext d d' rho : (forall n, (0 < n < 9)%nat -> d n = d' n) -> fs_z d rho = fs_z d' rho.
Proof. intros H. unfold fs_z. rewrite (H 1%nat), (H 3%nat), (H 5%nat), (H 7%nat) by lia. reflexivity. Qed.
Lemma fs_r_scale k d rho : fs_r (fun n => k * d n) rho = k * fs_r d rho. Proof. unfold fs_r. ring. Qed.
Lemma fs_z_scale k d rho : fs_z (fun n => k * d n) rho = k * fs_z d rho. Proof. unfold fs_z. ring. Qed.
(** the axial derivatives of a ring and of a loop *)
Definition sg (n : nat) : R := (-1) ^ n * INR (fact n).
Lemma current_D_coef r w n : 0 < r -> current_D r (S n) w = - (r ^ 2 / 2) * (sg n * coef3 (norm_2d w r) w n).
Proof.
  intros Hr. pose proof (norm_2d_pos w r ltac:(lra)) as P. pose proof (norm_2d_sqr w r) as E. set (D := norm_2d w r) in *. assert (Hw : Rabs w <= D) by (apply Rabs_le; split; nra).
  revert n. apply pair_ind.
  - rewrite current_D_1. fold D. rewrite coef3_0. unfold sg. cbn [pow fact INR]. field. lra.
  - rewrite current_D_SS, current_D_1. fold D. rewrite coef3_1 by lra. unfold sg. cbn [pow fact INR Nat.mul Nat.add]. field. lra.
  - intros n I1 I2. rewrite current_D_SS. rewrite I2, I1. fold D. rewrite (coef3_next D w P Hw n). unfold sg. rewrite !fact_S. rewrite <- !tech_pow_Rmult.
    rewrite (S_INR (S (S n))), (S_INR (S n)). pose proof (INR_S_pos n) as PN. set (k := INR (S n)) in *. set (f := INR (fact n)). set (s := (-1) ^ n). set (a := coef3 D w (S n)). set (b := coef3 D w n). clearbody k f s a b D.
    field. split; lra.
Qed.

(** ** The averages are the series *)
Section Averages.
  Variables (r w rho : R).
  Hypothesis (Hr : 0 < r).
  Let D := norm_2d w r.
  Lemma sa_pos : 0 < D. Proof. apply norm_2d_pos. lra. Qed.
  Lemma sa_sqr : D ^ 2 = w ^ 2 + r ^ 2. Proof. apply norm_2d_sqr. Qed.
  Lemma sa_w : Rabs w <= D. Proof. pose proof sa_pos. pose proof sa_sqr. apply Rabs_le; split; nra. Qed.
  Lemma sa_r : Rabs r <= D. Proof. pose proof sa_pos. pose proof sa_sqr. apply Rabs_le; split; nra. Qed.
  Ltac facts := 
    assert (F2 : INR (fact 2) = 2) by (rewrite INR_IZR_INZ; apply f_equal; reflexivity); assert (F3 : INR (fact 3) = 6) by (rewrite INR_IZR_INZ; apply f_equal; reflexivity);
    assert (F4 : INR (fact 4) = 24) by (rewrite INR_IZR_INZ; apply f_equal; reflexivity); assert (F5 : INR (fact 5) = 120) by (rewrite INR_IZR_INZ; apply f_equal; reflexivity);
    assert (F6 : INR (fact 6) = 720) by (rewrite INR_IZR_INZ; apply f_equal; reflexivity); assert (F7 : INR (fact 7) = 5040) by (rewrite INR_IZR_INZ; apply f_equal; reflexivity);
    assert (F8 : INR (fact 8) = 40320) by (rewrite INR_IZR_INZ; apply f_equal; reflexivity).
  Ltac finish := pose proof sa_pos as HP; pose proof sa_sqr as HS; clearbody D;
    assert (ER : r ^ 2 = D ^ 2 - w ^ 2) by lra;
    replace (r ^ 4) with ((D ^ 2 - w ^ 2) ^ 2) by (rewrite <- ER; ring); replace (r ^ 6) with ((D ^ 2 - w ^ 2) ^ 3) by (rewrite <- ER; ring); replace (r ^ 8) with ((D ^ 2 - w ^ 2) ^ 4) by (rewrite <- ER; ring);
    replace (r ^ 3) with ((D ^ 2 - w ^ 2) * r) by (rewrite <- ER; ring); replace (r ^ 5) with ((D ^ 2 - w ^ 2) ^ 2 * r) by (rewrite <- ER; ring); replace (r ^ 7) with ((D ^ 2 - w ^ 2) ^ 3 * r) by (rewrite <- ER; ring); rewrite ?ER.
  Ltac finishw := pose proof sa_pos as HP; pose proof sa_sqr as HS; clearbody D;
    assert (EW : w ^ 2 = D ^ 2 - r ^ 2) by lra;
    replace (w ^ 4) with ((D ^ 2 - r ^ 2) ^ 2) by (rewrite <- EW; ring); replace (w ^ 6) with ((D ^ 2 - r ^ 2) ^ 3) by (rewrite <- EW; ring); replace (w ^ 8) with ((D ^ 2 - r ^ 2) ^ 4) by (rewrite <- EW; ring);
    replace (w ^ 3) with ((D ^ 2 - r ^ 2) * w) by (rewrite <- EW; ring); replace (w ^ 5) with ((D ^ 2 - r ^ 2) ^ 2 * w) by (rewrite <- EW; ring); replace (w ^ 7) with ((D ^ 2 - r ^ 2) ^ 3 * w) by (rewrite <- EW; ring); rewrite ?EW.
  Lemma average_z : w * cos_average (turned D r 8 rho) 8 = 2 * PI * fs_z (fun n => ring_D r n w) rho.
  Proof.
    unfold fs_z. rewrite !(ring_D_coef r _ w Hr). fold D. pose proof sa_w as Hw. pose proof sa_pos as HD. rewrite coef_1, coef_3, coef_5, coef_7 by (assumption || lra).
    cbn [cos_average]. unfold turned. cbn [expansion]. unfold cos_coef3. cbn [nth]. rewrite !cosint_SS, cosint_0, cosint_1. facts. rewrite F3, F5, F7. change (INR (fact 1)) with 1. cbn [INR].
    clear F2 F3 F4 F5 F6 F7 F8. finish. field. lra.
  Qed.
  Lemma average_r : rho * cos_average (turned D r 8 rho) 8 + - r * cos_average1 (turned D r 8 rho) 8 = 2 * PI * (rho * fs_r (fun n => ring_D r n w) rho).
  Proof.
    unfold fs_r. rewrite !(ring_D_coef r _ w Hr). fold D. pose proof sa_w as Hw. pose proof sa_pos as HD. rewrite coef_2, coef_4, coef_6, coef_8 by (assumption || lra).
    cbn [cos_average cos_average1]. unfold turned. cbn [expansion]. unfold cos_coef3. cbn [nth]. rewrite !cosint_SS, cosint_0, cosint_1. facts. rewrite F2, F4, F6, F8. cbn [INR].
    clear F2 F3 F4 F5 F6 F7 F8. finishw. replace 0.5 with (/ 2) by lra. field. lra.
  Qed.
  Lemma average_loop_z : r * cos_average (turned D r 8 rho) 8 + - rho * cos_average1 (turned D r 7 rho) 8 = 4 * PI / r * fs_z (fun n => current_D r n w) rho.
  Proof.
    unfold fs_z. rewrite !(current_D_coef r w _ Hr). fold D. pose proof sa_w as Hw. pose proof sa_pos as HD. rewrite coef3_0, coef3_2, coef3_4, coef3_6 by (assumption || lra).
    cbn [cos_average cos_average1]. unfold turned. cbn [expansion]. unfold cos_coef3. cbn [nth]. rewrite !cosint_SS, cosint_0, cosint_1. unfold sg. facts. rewrite F2, F4, F6. change (INR (fact 0)) with 1. cbn [INR].
    clear F2 F3 F4 F5 F6 F7 F8. finishw. field. lra.
  Qed.
  Lemma average_loop_r : w * cos_average1 (turned D r 8 rho) 8 = 4 * PI / r * (rho * fs_r (fun n => current_D r n w) rho).
  Proof.
    unfold fs_r. rewrite !(current_D_coef r w _ Hr). fold D. pose proof sa_w as Hw. pose proof sa_pos as HD. rewrite coef3_1, coef3_3, coef3_5, coef3_7 by (assumption || lra).
    cbn [cos_average cos_average1]. unfold turned. cbn [expansion]. unfold cos_coef3. cbn [nth]. rewrite !cosint_SS, cosint_0, cosint_1. unfold sg. facts. rewrite F3, F5, F7. change (INR (fact 1)) with 1. cbn [INR].
    clear F2 F3 F4 F5 F6 F7 F8. finishw. replace 0.5 with (/ 2) by lra. field. lra.
  Qed.
End Averages.

(** ** The integrals over a turn *)
(** The field at [p] of the point at angle [phi] of a ring with unit line charge: Coulomb's law. *)
Definition coulomb (p : vec3) (r z phi : R) : vec3 :=
  vscale (r / (4 * PI * norm (vsub p (circle r z phi)) ^ 3)) (vsub p (circle r z phi)).
Definition field_error (k : R) (n : nat) (rho D : R) : R := k * (rho / D) ^ n * ((D + rho) / D) ^ 2 / (D - rho) ^ 3.
Section Turn.
  Variables (px py pz r z : R).
  Hypothesis (Hr : 0 < r).
  Notation rho := (norm_2d px py).
  Notation w := (pz - z).
  Notation D := (norm_2d (pz - z) r).
  Hypothesis (Hlt : rho < D).
  Definition cube_kernel (t : R) : R := / sqrt (len2 D (r * cos t) rho) ^ 3.
  Definition cube (u v : R) : R := RInt (fun t => (u + v * cos t) * cube_kernel t) 0 (2 * PI).
  Lemma tu_len t : 0 < len2 D (r * cos t) rho.
  Proof. apply len2_pos; [apply sa_pos; exact Hr|apply cos_le, sa_r; exact Hr|]. split; [apply norm_2d_nonneg|exact Hlt]. Qed.
  Lemma tu_cont u v t : continuous (fun t => (u + v * cos t) * cube_kernel t) t.
  Proof.
    apply (ex_derive_continuous (V := R_NormedModule)). pose proof (tu_len t) as L. pose proof (sqrt_lt_R0 _ L) as S. unfold cube_kernel, len2 in *. auto_derive.
    cbn [pow] in *. unfold Rminus in *. repeat split; try lra. apply Rgt_not_eq. repeat apply Rmult_lt_0_compat; lra.
  Qed.
  Lemma moment_error N u v : (N <= 7)%nat ->
    Rabs (cube u v - (u * cos_average (turned D r (S N) rho) 8 + v * cos_average1 (turned D r (S N) rho) 8)) <=
    2 * PI * ((Rabs u + Rabs v) * field_error (INR (S (S N)) * INR (S (S (S N))) / 2) (S N) rho D).
  Proof.
    intros HN. pose proof PI_RGT_0. pose proof (sa_pos r w Hr) as HD. pose proof (sa_r r w Hr) as HrD.
    rewrite <- expansion_moment. unfold cube.
    replace (RInt (fun t => (u + v * cos t) * cube_kernel t) 0 (2 * PI) - RInt (fun t => (u + v * cos t) * expansion (turned D r (S N) rho) 8 (cos t)) 0 (2 * PI))
      with (RInt (fun t => 1 * ((u + v * cos t) * cube_kernel t) + -1 * ((u + v * cos t) * expansion (turned D r (S N) rho) 8 (cos t))) 0 (2 * PI))
      by (rewrite RInt_lin by (intros; first [apply tu_cont|apply moment_continuous]); rint_gen; ring).
    replace (2 * PI * ((Rabs u + Rabs v) * field_error (INR (S (S N)) * INR (S (S (S N))) / 2) (S N) rho D)) with ((2 * PI - 0) * ((Rabs u + Rabs v) * field_error (INR (S (S N)) * INR (S (S (S N))) / 2) (S N) rho D)) by ring.
    apply RInt_abs_bound; [lra| |].
    - intros t. apply (continuous_plus (V := R_NormedModule) (fun t => 1 * ((u + v * cos t) * cube_kernel t)) (fun t => -1 * ((u + v * cos t) * expansion (turned D r (S N) rho) 8 (cos t))));
        apply (continuous_scal_r (K := R_AbsRing) (V := R_NormedModule)); [apply tu_cont|apply moment_continuous].
    - intros t. replace (1 * ((u + v * cos t) * cube_kernel t) + -1 * ((u + v * cos t) * expansion (turned D r (S N) rho) 8 (cos t))) with ((u + v * cos t) * (cube_kernel t - expansion (turned D r (S N) rho) 8 (cos t))) by ring.
      rewrite Rabs_mult. apply Rmult_le_compat; [apply Rabs_pos|apply Rabs_pos| |].
      + eapply Rle_trans; [apply Rabs_triang|]. rewrite Rabs_mult. assert (Rabs (cos t) <= 1) by (apply Rabs_le, COS_bound). pose proof (Rabs_pos v). nra.
      + unfold cube_kernel. rewrite <- turned_eq by (assumption || lia). apply (expansion3_error D (r * cos t) N rho HD (cos_le D r t HrD)). split; [apply norm_2d_nonneg|exact Hlt].
  Qed.
  (** in terms of the angle relative to the point *)
  Lemma cube_shift psi u v : RInt (fun phi => (u + v * cos (phi - psi)) * cube_kernel (phi - psi)) 0 (2 * PI) = cube u v.
  Proof.
    pose proof (turn_shift (fun t => (u + v * cos t) * cube_kernel t) psi 0 (tu_cont u v)) as T. cbv beta in T. rewrite T; [unfold cube; rewrite Rplus_0_l; reflexivity|].
    intros x. unfold cube_kernel. rewrite cos_turn. reflexivity.
  Qed.
  Lemma sin_cont t : continuous (fun t => sin t * cube_kernel t) t.
  Proof.
    apply (continuous_mult (K := R_AbsRing) sin cube_kernel); [apply (ex_derive_continuous (V := R_NormedModule)); auto_derive; exact I|].
    apply (continuous_ext (fun t => (1 + 0 * cos t) * cube_kernel t)); [intros; req; ring|apply tu_cont].
  Qed.
  Lemma sin_shift psi : RInt (fun phi => sin (phi - psi) * cube_kernel (phi - psi)) 0 (2 * PI) = 0.
  Proof.
    apply (full_turn_sin (fun c => / sqrt (len2 D (r * c) rho) ^ 3)). intros t.
    apply (continuous_ext (fun t => (1 + 0 * cos t) * cube_kernel t)); [intros; unfold cube_kernel; req; ring|apply tu_cont].
  Qed.
  Lemma shift_cont (g : R -> R) psi t : (forall t, continuous g t) -> continuous (fun phi => g (phi - psi)) t.
  Proof. intros H. apply (continuous_comp (fun phi => phi - psi) g); [apply (ex_derive_continuous (V := R_NormedModule)); auto_derive; exact I|apply H]. Qed.
  Lemma cube_distance psi phi : px = rho * cos psi -> py = rho * sin psi -> / norm (vsub (V3 px py pz) (circle r z phi)) ^ 3 = cube_kernel (phi - psi).
  Proof.
    intros E1 E2. unfold cube_kernel. do 2 f_equal. unfold norm, vsub, circle. cbn [vx vy vz]. f_equal. unfold len2. rewrite (norm_2d_sqr w r), cos_minus.
    pose proof (sin2_cos2 phi) as S1. pose proof (sin2_cos2 psi) as S2. unfold Rsqr in *. set (q := norm_2d px py) in *. clearbody q. rewrite E1, E2.
    transitivity (r ^ 2 * (sin phi * sin phi + cos phi * cos phi) + q ^ 2 * (sin psi * sin psi + cos psi * cos psi) - 2 * r * q * (cos phi * cos psi + sin phi * sin psi) + (z - pz) ^ 2); [ring|].
    rewrite S1, S2. ring.
  Qed.
  Lemma combine_cont psi u v k t : continuous (fun phi => (u + v * cos (phi - psi)) * cube_kernel (phi - psi) * k) t.
  Proof. apply (continuous_mult (K := R_AbsRing) (fun phi => (u + v * cos (phi - psi)) * cube_kernel (phi - psi)) (fun _ => k)); [apply (shift_cont (fun t => (u + v * cos t) * cube_kernel t)); apply tu_cont|apply continuous_const]. Qed.
  Lemma both psi (A B u v : R) (f : R -> R) : (forall phi, f phi = A * ((u + v * cos (phi - psi)) * cube_kernel (phi - psi)) + B * (sin (phi - psi) * cube_kernel (phi - psi))) ->
    RInt f 0 (2 * PI) = A * cube u v.
  Proof.
    intros H. rewrite (RInt_eq f _ _ _ H). rewrite RInt_lin.
    - rewrite cube_shift, sin_shift. rint_gen; ring.
    - intros t. apply (shift_cont (fun t => (u + v * cos t) * cube_kernel t)). apply tu_cont.
    - intros t. apply (shift_cont (fun t => sin t * cube_kernel t)). apply sin_cont.
  Qed.
  Lemma coulomb_turn psi : px = rho * cos psi -> py = rho * sin psi ->
    integral_turn (coulomb (V3 px py pz) r z) = V3 (r / (4 * PI) * cos psi * cube rho (- r)) (r / (4 * PI) * sin psi * cube rho (- r)) (r / (4 * PI) * w * cube 1 0).
  Proof.
    intros E1 E2. pose proof PI_RGT_0. unfold integral_turn.
    assert (G : forall phi, r / (4 * PI * norm (vsub (V3 px py pz) (circle r z phi)) ^ 3) = r / (4 * PI) * cube_kernel (phi - psi)).
    { intros phi. rewrite <- (cube_distance psi phi E1 E2). unfold Rdiv. rewrite Rinv_mult. ring. }
    assert (C : forall phi, cos phi = cos (phi - psi) * cos psi - sin (phi - psi) * sin psi) by (intros phi; rewrite <- cos_plus; f_equal; ring).
    assert (S : forall phi, sin phi = sin (phi - psi) * cos psi + cos (phi - psi) * sin psi) by (intros phi; rewrite <- sin_plus; f_equal; ring).
    f_equal; [apply (both psi _ (r / (4 * PI) * r * sin psi))|apply (both psi _ (- (r / (4 * PI) * r * cos psi)))|apply (both psi _ 0)]; intros phi; unfold coulomb; rewrite G; cbn [vscale vsub circle vx vy vz].
    - rewrite C. set (q := rho) in *. clearbody q. rewrite E1 at 1. req. ring.
    - rewrite S. set (q := rho) in *. clearbody q. rewrite E2 at 1. req. ring.
    - req. ring.
  Qed.
  Lemma biot_savart_turn psi : px = rho * cos psi -> py = rho * sin psi ->
    integral_turn (biot_savart (V3 px py pz) r z) = V3 (r / (4 * PI) * w * cos psi * cube 0 1) (r / (4 * PI) * w * sin psi * cube 0 1) (r / (4 * PI) * cube r (- rho)).
  Proof.
    intros E1 E2. pose proof PI_RGT_0. unfold integral_turn.
    assert (G : forall phi, 1 / (4 * PI * norm (vsub (V3 px py pz) (circle r z phi)) ^ 3) = 1 / (4 * PI) * cube_kernel (phi - psi)).
    { intros phi. rewrite <- (cube_distance psi phi E1 E2). unfold Rdiv. rewrite Rinv_mult. ring. }
    assert (C : forall phi, cos phi = cos (phi - psi) * cos psi - sin (phi - psi) * sin psi) by (intros phi; rewrite <- cos_plus; f_equal; ring).
    assert (S : forall phi, sin phi = sin (phi - psi) * cos psi + cos (phi - psi) * sin psi) by (intros phi; rewrite <- sin_plus; f_equal; ring).
    f_equal; [apply (both psi _ (- (r / (4 * PI) * w * sin psi)))|apply (both psi _ (r / (4 * PI) * w * cos psi))|apply (both psi _ 0)]; intros phi; unfold biot_savart; rewrite G; cbn [vscale vsub circle circle' cross vx vy vz].
    - rewrite C. unfold Rdiv. req. ring.
    - rewrite S. unfold Rdiv. req. ring.
    - assert (Cx : cos phi * px + sin phi * py = rho * cos (phi - psi)) by (rewrite cos_minus; set (q := rho) in *; clearbody q; rewrite E1, E2; ring).
      pose proof (sin2_cos2 phi) as SC. unfold Rsqr in SC.
      replace (- r * sin phi * (py - r * sin phi) - r * cos phi * (px - r * cos phi)) with (r * (r * (sin phi * sin phi + cos phi * cos phi) - (cos phi * px + sin phi * py))) by ring.
      rewrite Cx, SC. unfold Rdiv. req. ring.
  Qed.
End Turn.

(** ** Errors for one ring and one loop *)
Definition field_truncation (rho D : R) : R := (rho / D) ^ 8 * (D + rho) ^ 3 / (D ^ 2 * (D - rho) ^ 3).
Definition near_vec (a b : vec3) (e : R) : Prop := Rabs (vx a - vx b) <= e /\ Rabs (vy a - vy b) <= e /\ Rabs (vz a - vz b) <= e.
Lemma field_error_nonneg k n rho D : 0 <= k -> 0 <= rho < D -> 0 <= field_error k n rho D.
Proof.
  intros Hk H. unfold field_error. apply Rmult_le_pos; [|apply Rlt_le, Rinv_0_lt_compat, pow_lt; lra]. apply Rmult_le_pos; [|apply pow2_ge_0].
  apply Rmult_le_pos; [exact Hk|]. apply pow_le. apply Rmult_le_pos; [lra|apply Rlt_le, Rinv_0_lt_compat; lra].
Qed.
Lemma field_error_truncation rho D : 0 <= rho < D -> (D + rho) * field_error 45 8 rho D = 45 * field_truncation rho D.
Proof. intros H. unfold field_error, field_truncation. field. split; lra. Qed.
Lemma scaled_error k a b e : 0 <= k -> Rabs (a - b) <= e -> Rabs (k * a - k * b) <= k * e.
Proof. intros Hk H. rewrite <- Rmult_minus_distr_l, Rabs_mult, (Rabs_pos_eq k) by exact Hk. apply Rmult_le_compat_l; assumption. Qed.
Lemma angle_error c a b e : Rabs c <= 1 -> Rabs (a - b) <= e -> Rabs (c * a - c * b) <= e.
Proof. intros Hc H. rewrite <- Rmult_minus_distr_l, Rabs_mult. pose proof (Rabs_pos c). pose proof (Rabs_pos (a - b)). nra. Qed.
Lemma INR_45 : INR 9 * INR 10 / 2 = 45. Proof. cbn [INR]. lra. Qed.
Lemma INR_36 : INR 8 * INR 9 / 2 = 36. Proof. cbn [INR]. lra. Qed.
Theorem ring_field_error (p : vec3) (r z : R) : 0 < r -> norm_2d (vx p) (vy p) < norm_2d (vz p - z) r ->
  near_vec (integral_turn (coulomb p r z)) (field_series (fun n => r / 2 * ring_D r n (vz p - z)) p) (r / 2 * (45 * field_truncation (norm_2d (vx p) (vy p)) (norm_2d (vz p - z) r))).
Proof.
  destruct p as [px py pz]. cbn [vx vy vz]. intros Hr Hlt. pose proof PI_RGT_0 as Hpi. destruct (polar px py) as (psi & E1 & E2).
  rewrite (coulomb_turn px py pz r z Hr Hlt psi E1 E2), field_series_parts. cbn [vx vy vz]. rewrite fs_r_scale, fs_z_scale.
  pose proof (moment_error px py pz r z Hr Hlt 7 (norm_2d px py) (- r) ltac:(lia)) as MR. pose proof (moment_error px py pz r z Hr Hlt 7 1 0 ltac:(lia)) as MZ.
  rewrite INR_45 in MR, MZ. rewrite (average_r r (pz - z) (norm_2d px py) Hr) in MR. pose proof (average_z r (pz - z) (norm_2d px py) Hr) as AZ.
  pose proof (norm_2d_nonneg px py) as P0. pose proof (sa_pos r (pz - z) Hr) as PD. pose proof (sa_r r (pz - z) Hr) as RD. pose proof (sa_w r (pz - z) Hr) as WD. rewrite (Rabs_pos_eq r) in RD by lra.
  rewrite <- field_error_truncation by lra. pose proof (field_error_nonneg 45 8 (norm_2d px py) (norm_2d (pz - z) r) ltac:(lra) ltac:(lra)) as PE.
  rewrite (Rabs_pos_eq (norm_2d px py)), Rabs_Ropp, (Rabs_pos_eq r) in MR by lra. rewrite Rabs_R1, Rabs_R0 in MZ.
  set (I := cube px py pz r z (norm_2d px py) (- r)) in *. set (J := cube px py pz r z 1 0) in *. clearbody I J.
  set (Fr := fs_r _ _) in *. set (Fz := fs_z _ _) in *. clearbody Fr Fz. set (e := field_error 45 8 (norm_2d px py) (norm_2d (pz - z) r)) in *. clearbody e.
  set (D := norm_2d (pz - z) r) in *. set (Q := cos_average (turned D r 8 (norm_2d px py)) 8) in *. clearbody Q D. set (rho := norm_2d px py) in *. clearbody rho.
  assert (Main : Rabs (r / (4 * PI) * I - rho * (r / 2 * Fr)) <= r / 2 * ((D + rho) * e)).
  { assert (K : 0 <= r / (4 * PI)) by (apply Rlt_le, Rdiv_lt_0_compat; lra). pose proof (scaled_error (r / (4 * PI)) _ _ _ K MR) as SE.
    replace (r / (4 * PI) * (2 * PI * (rho * Fr))) with (rho * (r / 2 * Fr)) in SE by (field; lra). eapply Rle_trans; [exact SE|].
    replace (r / (4 * PI) * (2 * PI * ((rho + r) * e))) with (r / 2 * ((rho + r) * e)) by (field; lra). apply Rmult_le_compat_l; [lra|]. apply Rmult_le_compat_r; [exact PE|lra]. }
  split; [|split]; cbn [vx vy vz].
  - replace (r / (4 * PI) * cos psi * I) with (cos psi * (r / (4 * PI) * I)) by ring. replace (px * (r / 2 * Fr)) with (cos psi * (rho * (r / 2 * Fr))) by (rewrite E1; ring).
    apply angle_error; [apply Rabs_le, COS_bound|exact Main].
  - replace (r / (4 * PI) * sin psi * I) with (sin psi * (r / (4 * PI) * I)) by ring. replace (py * (r / 2 * Fr)) with (sin psi * (rho * (r / 2 * Fr))) by (rewrite E2; ring).
    apply angle_error; [apply Rabs_le, SIN_bound|exact Main].
  - replace (r / (4 * PI) * (pz - z) * J - r / 2 * Fz) with (r / (4 * PI) * (pz - z) * (J - (1 * Q + 0 * cos_average1 (turned D r 8 rho) 8))) by (replace Fz with ((pz - z) * Q / (2 * PI)) by (rewrite AZ; field; lra); field; lra).
    assert (K : 0 <= r / (4 * PI)) by (apply Rlt_le, Rdiv_lt_0_compat; lra). rewrite !Rabs_mult, (Rabs_pos_eq (r / (4 * PI))) by exact K. rewrite Rmult_assoc.
    apply Rle_trans with (r / (4 * PI) * (D * (2 * PI * ((1 + 0) * e)))).
    + apply Rmult_le_compat_l; [exact K|]. apply Rmult_le_compat; [apply Rabs_pos|apply Rabs_pos|exact WD|exact MZ].
    + replace (r / (4 * PI) * (D * (2 * PI * ((1 + 0) * e)))) with (r / 2 * (D * e)) by (field; lra). apply Rmult_le_compat_l; [lra|]. apply Rmult_le_compat_r; [exact PE|lra].
Qed.
Theorem loop_field_error (p : vec3) (a z : R) : 0 < a -> norm_2d (vx p) (vy p) < norm_2d (vz p - z) a ->
  near_vec (integral_turn (biot_savart p a z)) (field_series (fun n => current_D a n (vz p - z)) p) (a / 2 * (81 * field_truncation (norm_2d (vx p) (vy p)) (norm_2d (vz p - z) a))).
Proof.
  destruct p as [px py pz]. cbn [vx vy vz]. intros Hr Hlt. pose proof PI_RGT_0 as Hpi. destruct (polar px py) as (psi & E1 & E2).
  rewrite (biot_savart_turn px py pz a z Hr Hlt psi E1 E2), field_series_parts. cbn [vx vy vz].
  pose proof (moment_error px py pz a z Hr Hlt 7 0 1 ltac:(lia)) as MR. pose proof (moment_error px py pz a z Hr Hlt 7 a 0 ltac:(lia)) as MZ. pose proof (moment_error px py pz a z Hr Hlt 6 0 (- norm_2d px py) ltac:(lia)) as MY.
  rewrite INR_45 in MR, MZ. rewrite INR_36 in MY. pose proof (average_loop_r a (pz - z) (norm_2d px py) Hr) as AR. pose proof (average_loop_z a (pz - z) (norm_2d px py) Hr) as AZ.
  pose proof (norm_2d_nonneg px py) as P0. pose proof (sa_pos a (pz - z) Hr) as PD. pose proof (sa_r a (pz - z) Hr) as RD. pose proof (sa_w a (pz - z) Hr) as WD. rewrite (Rabs_pos_eq a) in RD by lra.
  assert (Sum : cube px py pz a z a (- norm_2d px py) = cube px py pz a z a 0 + cube px py pz a z 0 (- norm_2d px py)).
  { unfold cube. rewrite (RInt_eq _ (fun t => 1 * ((a + 0 * cos t) * cube_kernel px py pz a z t) + 1 * ((0 + - norm_2d px py * cos t) * cube_kernel px py pz a z t))) by (intros; req; ring).
    rewrite RInt_lin by (intros; apply tu_cont; assumption). rint_gen. ring. }
  rewrite Sum. clear Sum.
  rewrite Rabs_R0, Rabs_R1 in MR. rewrite (Rabs_pos_eq a), Rabs_R0 in MZ by lra. rewrite Rabs_R0, Rabs_Ropp, (Rabs_pos_eq (norm_2d px py)) in MY by lra.
  assert (E7 : norm_2d px py * field_error 36 7 (norm_2d px py) (norm_2d (pz - z) a) = norm_2d (pz - z) a * field_error 36 8 (norm_2d px py) (norm_2d (pz - z) a)).
  { unfold field_error. set (q := norm_2d px py) in *. set (D := norm_2d (pz - z) a) in *. clearbody q D. field. split; lra. }
  assert (E81 : norm_2d (pz - z) a * field_error 81 8 (norm_2d px py) (norm_2d (pz - z) a) <= 81 * field_truncation (norm_2d px py) (norm_2d (pz - z) a)).
  { pose proof (field_error_nonneg 81 8 (norm_2d px py) (norm_2d (pz - z) a) ltac:(lra) ltac:(lra)) as P81.
    apply Rle_trans with ((norm_2d (pz - z) a + norm_2d px py) * field_error 81 8 (norm_2d px py) (norm_2d (pz - z) a)); [apply Rmult_le_compat_r; [exact P81|lra]|]. right.
    unfold field_error, field_truncation. set (q := norm_2d px py) in *. set (D := norm_2d (pz - z) a) in *. clearbody q D. field. split; lra. }
  replace ((0 + norm_2d px py) * field_error 36 7 (norm_2d px py) (norm_2d (pz - z) a)) with (norm_2d (pz - z) a * field_error 36 8 (norm_2d px py) (norm_2d (pz - z) a)) in MY by (rewrite <- E7; ring). clear E7.
  pose proof (field_error_nonneg 1 8 (norm_2d px py) (norm_2d (pz - z) a) ltac:(lra) ltac:(lra)) as PE.
  assert (Lin : forall k, field_error k 8 (norm_2d px py) (norm_2d (pz - z) a) = k * field_error 1 8 (norm_2d px py) (norm_2d (pz - z) a)) by (intros k; unfold field_error, Rdiv; ring).
  rewrite (Lin 45) in MR, MZ. rewrite (Lin 36) in MY. rewrite (Lin 81) in E81. clear Lin.
  set (I := cube px py pz a z 0 1) in *. set (J := cube px py pz a z a 0) in *. set (L := cube px py pz a z 0 (- norm_2d px py)) in *. clearbody I J L.
  set (Fr := fs_r _ _) in *. set (Fz := fs_z _ _) in *. clearbody Fr Fz. set (e := field_error 1 8 (norm_2d px py) (norm_2d (pz - z) a)) in *. clearbody e.
  set (T := field_truncation _ _) in *. clearbody T. set (D := norm_2d (pz - z) a) in *.
  set (Q1 := cos_average1 (turned D a 8 (norm_2d px py)) 8) in *. set (Q := cos_average (turned D a 8 (norm_2d px py)) 8) in *. set (Q7 := cos_average1 (turned D a 7 (norm_2d px py)) 8) in *. set (Q0 := cos_average (turned D a 7 (norm_2d px py)) 8) in *. clearbody Q Q1 Q7 Q0 D. set (rho := norm_2d px py) in *. clearbody rho.
  assert (K : 0 <= a / (4 * PI)) by (apply Rlt_le, Rdiv_lt_0_compat; lra).
  assert (Main : Rabs (a / (4 * PI) * (pz - z) * I - rho * Fr) <= a / 2 * (81 * T)).
  { replace (a / (4 * PI) * (pz - z) * I - rho * Fr) with (a / (4 * PI) * (pz - z) * (I - (0 * Q + 1 * Q1))) by (replace (rho * Fr) with (a / (4 * PI) * ((pz - z) * Q1)) by (rewrite AR; field; lra); ring).
    rewrite !Rabs_mult, (Rabs_pos_eq (a / (4 * PI))) by exact K. rewrite Rmult_assoc.
    apply Rle_trans with (a / (4 * PI) * (D * (2 * PI * ((0 + 1) * (45 * e))))).
    + apply Rmult_le_compat_l; [exact K|]. apply Rmult_le_compat; [apply Rabs_pos|apply Rabs_pos|exact WD|exact MR].
    + replace (a / (4 * PI) * (D * (2 * PI * ((0 + 1) * (45 * e))))) with (a / 2 * (D * (45 * e))) by (field; lra). apply Rmult_le_compat_l; [lra|]. nra. }
  split; [|split]; cbn [vx vy vz].
  - replace (a / (4 * PI) * (pz - z) * cos psi * I) with (cos psi * (a / (4 * PI) * (pz - z) * I)) by ring. replace (px * Fr) with (cos psi * (rho * Fr)) by (rewrite E1; ring).
    apply angle_error; [apply Rabs_le, COS_bound|exact Main].
  - replace (a / (4 * PI) * (pz - z) * sin psi * I) with (sin psi * (a / (4 * PI) * (pz - z) * I)) by ring. replace (py * Fr) with (sin psi * (rho * Fr)) by (rewrite E2; ring).
    apply angle_error; [apply Rabs_le, SIN_bound|exact Main].
  - replace (a / (4 * PI) * (J + L) - Fz) with (a / (4 * PI) * ((J - (a * Q + 0 * Q1)) + (L - (0 * Q0 + - rho * Q7)))) by (replace Fz with (a / (4 * PI) * (a * Q + - rho * Q7)) by (rewrite AZ; field; lra); ring).
    rewrite Rabs_mult, (Rabs_pos_eq (a / (4 * PI))) by exact K.
    apply Rle_trans with (a / (4 * PI) * (2 * PI * ((a + 0) * (45 * e)) + 2 * PI * (D * (36 * e)))).
    + apply Rmult_le_compat_l; [exact K|]. eapply Rle_trans; [apply Rabs_triang|]. apply Rplus_le_compat; assumption.
    + replace (a / (4 * PI) * (2 * PI * ((a + 0) * (45 * e)) + 2 * PI * (D * (36 * e)))) with (a / 2 * (a * (45 * e) + D * (36 * e))) by (field; lra). apply Rmult_le_compat_l; [lra|]. nra.
Qed.
