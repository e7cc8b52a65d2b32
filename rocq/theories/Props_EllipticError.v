(** Property theorems about the accuracy of the elliptic integrals: C87. *)
From Coq Require Import Reals Lra Lia Psatz.
From Coquelicot Require Import Coquelicot.
From Verif Require Import Base BaseFacts Vec GeomModel OutwardFacts FieldModel FieldFacts SeriesModel SeriesFacts Field3DFacts EllipticSpec EllipticFacts RingModel RingFacts LoopFacts GegenbauerFacts FieldSeriesFacts CoulombFacts AxialErrorFacts EllipticLogSeries EllipticCode
  Props_Elliptic Props_RadialSeries Props_FieldSeries.
Local Open Scope R_scope.

Section Kernels.
Variables (K E : R -> R) (r0 z0 r z : R).
Let A := far2 r0 z0 r z.
Let B := near2 r0 z0 r z.
Lemma dr1_form : MIN_DISTANCE_AXIS <= r0 -> 0 < r -> 0 < B ->
  dr1_potential_radial_ring_of K E r0 z0 r z = - (r / (2 * PI * r0 * sqrt A)) * (K (B / A) + (r0 ^ 2 - r ^ 2 - (z - z0) ^ 2) / B * E (B / A)).
Proof.
  intros H0 Hr Hn. assert (M : 0 < MIN_DISTANCE_AXIS) by (unfold MIN_DISTANCE_AXIS; lra). pose proof (far2_pos r0 z0 r z ltac:(lra) Hr) as F. fold A in F. pose proof (sqrt_lt_R0 _ F) as S.
  pose proof PI_RGT_0. unfold dr1_potential_radial_ring_of. destruct (Rlt_dec r0 MIN_DISTANCE_AXIS) as [L|_]; [lra|].
  replace (4 * r * r - 4 * (r - r0) * r + (z - z0) * (z - z0) + (r - r0) * (r - r0)) with A by (unfold A, far2; ring).
  replace ((z - z0) * (z - z0) + (r - r0) * (r - r0)) with B by (unfold B, near2; ring).
  replace (-2 * (r - r0) * (r - r0) * r + (z - z0) * (z - z0) * (2 * (r - r0) - 2 * r) + 2 * (r - r0) * (r - r0) * (r - r0)) with (-2 * r0 * B) by (unfold B, near2; ring).
  replace ((z - z0) * (z - z0) * r + (r - r0) * (r - r0) * r) with (r * B) by (unfold B, near2; ring).
  replace (-2 * (r - r0) * r * r - (z - z0) * (z - z0) * r + (r - r0) * (r - r0) * r) with (r * (r0 ^ 2 - r ^ 2 - (z - z0) ^ 2)) by ring.
  field. repeat split; lra.
Qed.
Lemma dz1_form : 0 <= r0 -> 0 < r -> 0 < B -> dz1_potential_radial_ring_of E r0 z0 r z = (z - z0) * r / (PI * B * sqrt A) * E (B / A).
Proof.
  intros H0 Hr Hn. pose proof (far2_pos r0 z0 r z H0 Hr) as F. fold A in F. pose proof (sqrt_lt_R0 _ F) as S. pose proof PI_RGT_0. unfold dz1_potential_radial_ring_of.
  replace (4 * r0 * r0 + 4 * (r - r0) * r0 + (z - z0) * (z - z0) + (r - r0) * (r - r0)) with A by (unfold A, far2; ring).
  replace ((z - z0) * (z - z0) + (r - r0) * (r - r0)) with B by (unfold B, near2; ring). field. repeat split; lra.
Qed.
End Kernels.
Lemma ratio_range r0 z0 r z : 0 <= r0 -> 0 < r -> 0 < near2 r0 z0 r z -> 0 < near2 r0 z0 r z / far2 r0 z0 r z <= 1.
Proof.
  intros H0 Hr N. pose proof (far2_pos r0 z0 r z H0 Hr) as F. split; [apply Rdiv_lt_0_compat; assumption|]. apply (Rmult_le_reg_r (far2 r0 z0 r z)); [exact F|]. replace (near2 r0 z0 r z / far2 r0 z0 r z * far2 r0 z0 r z) with (near2 r0 z0 r z) by (field; lra). unfold near2, far2. nra.
Qed.
Lemma ring_field_exact c p : off_rings c p -> (MIN_DISTANCE_AXIS <= norm_2d (vx p) (vy p) \/ vx p = 0 /\ vy p = 0) -> ring_field c p = field_radial_of exact_km1 exact_em1 p c.
Proof.
  intros O Hp. set (fr := fun q => - dr1_potential_radial_ring_of exact_km1 exact_em1 (norm_2d (vx p) (vy p)) (vz p) (vx q) (vz q)). set (fz := fun q => - dz1_potential_radial_ring_of exact_em1 (norm_2d (vx p) (vy p)) (vz p) (vx q) (vz q)).
  assert (G : forall x, In x (q_items c) -> forall jp, In jp (snd x) -> integral_turn (coulomb p (vx (snd jp)) (vz (snd jp))) = from_cylinder p (fr (snd jp)) (fz (snd jp))).
  { intros x Hx jp Hj. destruct (O x jp Hx Hj) as (Ha & Hoff). symmetry. apply ring_is_coulomb; assumption. }
  assert (S : forall k f, evaluate (fun q => k * f q) c = k * evaluate f c).
  { intros k f. unfold evaluate, source_sum. rewrite <- Rsum_scal. apply Rsum_ext. intros x _. rewrite <- Rmult_assoc, (Rmult_comm k), Rmult_assoc. f_equal. rewrite <- Rsum_scal. apply Rsum_ext. intros jp _. ring. }
  assert (Z : forall f, evaluate (fun q => - f q) c = - evaluate f c). { intros f. rewrite (evaluate_ext (fun q => - f q) (fun q => -1 * f q)) by (intros; ring). rewrite S. ring. }
  unfold ring_field, sum_turns. rewrite (evaluate_ext (fun q => vx (integral_turn (coulomb p (vx q) (vz q)))) (fun q => vx (from_cylinder p (fr q) (fz q)))), (evaluate_ext (fun q => vy (integral_turn (coulomb p (vx q) (vz q)))) (fun q => vy (from_cylinder p (fr q) (fz q)))), (evaluate_ext (fun q => vz (integral_turn (coulomb p (vx q) (vz q)))) (fun q => vz (from_cylinder p (fr q) (fz q))))
    by (intros x Hx jp Hj; rewrite (G x Hx jp Hj); reflexivity).
  unfold field_radial_of, from_cylinder. rewrite <- !Z. fold fr fz. change (fun q => - dr1_potential_radial_ring_of exact_km1 exact_em1 (norm_2d (vx p) (vy p)) (vz p) (vx q) (vz q)) with fr. change (fun q => - dz1_potential_radial_ring_of exact_em1 (norm_2d (vx p) (vy p)) (vz p) (vx q) (vz q)) with fz.
  destruct (Rle_dec MIN_DISTANCE_AXIS (norm_2d (vx p) (vy p))); cbn [vx vy vz]; f_equal.
  - apply (S _ fr).
  - apply (S _ fr).
  - rewrite (evaluate_ext (fun _ => 0) (fun q => 0 * 0)) by (intros; ring). rewrite (S 0 (fun _ => 0)). ring.
  - rewrite (evaluate_ext (fun _ => 0) (fun q => 0 * 0)) by (intros; ring). rewrite (S 0 (fun _ => 0)). ring.
Qed.

(** ** C87 Accuracy of the elliptic integrals and of the fields made of them *)
(** The polynomials with the logarithm (elliptic.c:9-83) are within 3e-13 of the integrals, for every argument in (0, 1]. *)
Theorem C87_first_kind x : 0 < x <= 1 -> Rabs (ellipkm1 x - elliptic_K (1 - x)) <= 3e-13.
Proof. intros H. pose proof (K_error x H). lra. Qed.
Print Assumptions C87_first_kind.
Theorem C87_second_kind x : 0 < x <= 1 -> Rabs (ellipem1 x - elliptic_E (1 - x)) <= 3e-13.
Proof. intros H. pose proof (E_error x H). lra. Qed.
Print Assumptions C87_second_kind.
(** The functions of the parameter: the first kind for parameters of rings and loops, the second for all. *)
Theorem C87_ellipk k : 0 <= k < 1 -> Rabs (ellipk k - elliptic_K k) <= 3e-13.
Proof. intros H. unfold ellipk. destruct (Rlt_dec (-1) k) as [_|N]; [|lra]. replace (elliptic_K k) with (elliptic_K (1 - (1 - k))) by (f_equal; ring). apply C87_first_kind. lra. Qed.
Print Assumptions C87_ellipk.
Theorem C87_ellipe k : k < 1 -> Rabs (ellipe k - elliptic_E k) <= 3e-13 * (if Rle_dec 0 k then 1 else sqrt (1 - k)).
Proof.
  intros H. unfold ellipe. destruct (Rle_dec 0 k) as [P|P]; [destruct (Rle_dec k 1) as [Q|Q]; [|lra]|].
  - replace (elliptic_E k) with (elliptic_E (1 - (1 - k))) by (f_equal; ring). rewrite Rmult_1_r. apply C87_second_kind. lra.
  - assert (I : 0 < -1 / (k - 1) <= 1).
    { split. replace (-1 / (k - 1)) with (1 / (1 - k)) by (field; lra). apply Rdiv_lt_0_compat; lra. apply (Rmult_le_reg_r (1 - k)); [lra|]. replace (-1 / (k - 1) * (1 - k)) with 1 by (field; lra). lra. }
    pose proof (C87_second_kind _ I) as A. rewrite (E_transform k H). replace (k / (k - 1)) with (1 - -1 / (k - 1)) by (field; lra). rewrite <- Rmult_minus_distr_r, Rabs_mult, (Rabs_pos_eq (sqrt _)) by apply sqrt_pos. apply Rmult_le_compat_r; [apply sqrt_pos|exact A].
Qed.
Print Assumptions C87_ellipe.
(** The potential of charged rings against the integral over the circles. [weight K c] is the sum over all quadrature points q of
    |charge| |jacobian and weight| K q; far2 and near2 are the squares of the largest and the smallest distance to the ring. *)
Theorem C87_potential c p : off_rings c p ->
  Rabs (potential_radial p c - evaluate (fun q => RInt (fun phi => vx q * potential_3d_point p (circle (vx q) (vz q) phi)) 0 (2 * PI)) c) <=
  3e-13 * weight (fun q => vx q / (PI * sqrt (far2 (norm_2d (vx p) (vy p)) (vz p) (vx q) (vz q)))) c.
Proof. intros O. rewrite <- C56_potential by exact O. apply (C56_error 3e-13 c p O). intros t Ht. exact (C87_first_kind t Ht). Qed.
Print Assumptions C87_potential.

(** The field of charged rings against Coulomb's law, integrated over the circles. *)
Theorem C87_field c p : off_rings c p -> (MIN_DISTANCE_AXIS <= norm_2d (vx p) (vy p) \/ vx p = 0 /\ vy p = 0) ->
  let r0 := norm_2d (vx p) (vy p) in let A q := far2 r0 (vz p) (vx q) (vz q) in let B q := near2 r0 (vz p) (vx q) (vz q) in
  let radial := 3e-13 * weight (fun q => vx q / (2 * PI * r0 * sqrt (A q)) * (1 + Rabs (r0 ^ 2 - vx q ^ 2 - (vz q - vz p) ^ 2) / B q)) c in
  (MIN_DISTANCE_AXIS <= r0 -> Rabs (vx (field_radial p c) - vx (ring_field c p)) <= radial /\ Rabs (vy (field_radial p c) - vy (ring_field c p)) <= radial) /\
  (vx p = 0 /\ vy p = 0 -> vx (field_radial p c) = vx (ring_field c p) /\ vy (field_radial p c) = vy (ring_field c p)) /\
  Rabs (vz (field_radial p c) - vz (ring_field c p)) <= 3e-13 * weight (fun q => Rabs (vz q - vz p) * vx q / (PI * B q * sqrt (A q))) c.
Proof.
  intros O Hp r0 A B radial. rewrite ring_field_exact by assumption. change (field_radial p c) with (field_radial_of ellipkm1 ellipem1 p c). pose proof PI_RGT_0 as Hpi. assert (R0 : 0 <= r0) by apply norm_2d_nonneg.
  assert (EZ : Rabs (evaluate (fun q => dz1_potential_radial_ring_of ellipem1 r0 (vz p) (vx q) (vz q)) c - evaluate (fun q => dz1_potential_radial_ring_of exact_em1 r0 (vz p) (vx q) (vz q)) c) <= 3e-13 * weight (fun q => Rabs (vz q - vz p) * vx q / (PI * B q * sqrt (A q))) c).
  { rewrite evaluate_minus, <- weight_scale. apply evaluate_abs. intros x Hx jp Hj. destruct (O x jp Hx Hj) as (Hr & Hoff). set (q := snd jp) in *. pose proof (near2_pos _ _ _ _ Hoff) as N. fold r0 in N. rewrite !dz1_form by assumption. pose proof (ratio_range _ _ _ _ R0 Hr N) as T. pose proof (far2_pos r0 (vz p) (vx q) (vz q) R0 Hr) as F. pose proof (sqrt_lt_R0 _ F) as S. unfold A, B.
    set (a := far2 r0 (vz p) (vx q) (vz q)) in *. set (b := near2 r0 (vz p) (vx q) (vz q)) in *. pose proof (C87_second_kind _ T) as X. unfold exact_em1. rewrite <- Rmult_minus_distr_l, Rabs_mult. assert (D : 0 < PI * b * sqrt a) by (apply Rmult_lt_0_compat; [apply Rmult_lt_0_compat; [exact Hpi|exact N]|exact S]).
    unfold Rdiv. rewrite !Rabs_mult, (Rabs_pos_eq (vx q)), (Rabs_pos_eq (/ _)) by (try (left; apply Rinv_0_lt_compat, D); lra). rewrite Rmult_comm. apply Rmult_le_compat_r; [|exact X]. apply Rmult_le_pos; [apply Rmult_le_pos; [apply Rabs_pos|lra]|left; apply Rinv_0_lt_compat, D]. }
  unfold field_radial_of, from_cylinder. fold r0. destruct (Rle_dec MIN_DISTANCE_AXIS r0) as [Hr0|Hr0].
  - cbn [vx vy vz].
    assert (ER : Rabs (evaluate (fun q => dr1_potential_radial_ring_of ellipkm1 ellipem1 r0 (vz p) (vx q) (vz q)) c - evaluate (fun q => dr1_potential_radial_ring_of exact_km1 exact_em1 r0 (vz p) (vx q) (vz q)) c) <= radial).
    { unfold radial. rewrite evaluate_minus, <- weight_scale. apply evaluate_abs. intros x Hx jp Hj. destruct (O x jp Hx Hj) as (Hr & Hoff). set (q := snd jp) in *. pose proof (near2_pos _ _ _ _ Hoff) as N. fold r0 in N. rewrite !dr1_form by assumption. pose proof (ratio_range _ _ _ _ R0 Hr N) as T. pose proof (far2_pos r0 (vz p) (vx q) (vz q) R0 Hr) as F. pose proof (sqrt_lt_R0 _ F) as S. unfold A, B.
      set (a := far2 r0 (vz p) (vx q) (vz q)) in *. set (b := near2 r0 (vz p) (vx q) (vz q)) in *. pose proof (C87_first_kind _ T) as XK. pose proof (C87_second_kind _ T) as XE. unfold exact_em1, exact_km1. set (t := b / a) in *. set (dk := ellipkm1 t - elliptic_K (1 - t)) in *. set (de := ellipem1 t - elliptic_E (1 - t)) in *. set (w := vx q / (2 * PI * r0 * sqrt a)). set (g := r0 ^ 2 - vx q ^ 2 - (vz q - vz p) ^ 2).
      assert (M : 0 < MIN_DISTANCE_AXIS) by (unfold MIN_DISTANCE_AXIS; lra). assert (W : 0 < w) by (apply Rdiv_lt_0_compat; [exact Hr|]; apply Rmult_lt_0_compat; [apply Rmult_lt_0_compat|]; lra).
      replace (- w * (ellipkm1 t + g / b * ellipem1 t) - - w * (elliptic_K (1 - t) + g / b * elliptic_E (1 - t))) with (- (w * (dk + g / b * de))) by (unfold dk, de; ring). rewrite Rabs_Ropp, Rabs_mult, (Rabs_pos_eq w) by lra.
      replace (3e-13 * (w * (1 + Rabs g / b))) with (w * (3e-13 + Rabs g / b * 3e-13)) by ring. apply Rmult_le_compat_l; [lra|]. eapply Rle_trans; [apply Rabs_triang|]. apply Rplus_le_compat; [exact XK|]. unfold Rdiv. rewrite !Rabs_mult, (Rabs_pos_eq (/ b)) by (left; apply Rinv_0_lt_compat, N). apply Rmult_le_compat_l; [apply Rmult_le_pos; [apply Rabs_pos|left; apply Rinv_0_lt_compat, N]|exact XE]. }
    assert (M : 0 < r0) by (unfold MIN_DISTANCE_AXIS in Hr0; lra).
    assert (C : forall u, u ^ 2 <= r0 ^ 2 -> forall y y', Rabs (y - y') <= radial -> Rabs (u / r0 * - y - u / r0 * - y') <= radial).
    { intros u Hu y y' Hy. replace (u / r0 * - y - u / r0 * - y') with (u / r0 * - (y - y')) by (unfold Rdiv; ring). rewrite Rabs_mult, Rabs_Ropp. assert (U : Rabs (u / r0) <= 1). { unfold Rdiv. rewrite Rabs_mult, (Rabs_pos_eq (/ r0)) by (left; apply Rinv_0_lt_compat, M). apply (Rmult_le_reg_r r0); [exact M|]. rewrite Rmult_assoc, Rinv_l by lra. rewrite Rmult_1_r, Rmult_1_l. apply Rabs_le. split; nra. }
      apply Rle_trans with (1 * Rabs (y - y')); [apply Rmult_le_compat_r; [apply Rabs_pos|exact U]|lra]. }
    assert (SQ : r0 ^ 2 = vx p ^ 2 + vy p ^ 2) by (unfold r0, norm_2d; rewrite pow2_sqrt by nra; ring).
    split; [intros _; split; apply C; try exact ER; nra|]. split; [intros [X Y]; rewrite X, Y in SQ; nra|]. match goal with |- Rabs (- ?y - - ?y') <= _ => replace (- y - - y') with (- (y - y')) by ring end. rewrite Rabs_Ropp. exact EZ.
  - cbn [vx vy vz]. split; [intros H; contradiction|]. split; [intros _; split; reflexivity|]. match goal with |- Rabs (- ?y - - ?y') <= _ => replace (- y - - y') with (- (y - y')) by ring end. rewrite Rabs_Ropp. exact EZ.
Qed.
Print Assumptions C87_field.
(** The field of current loops against the law of Biot and Savart. *)
Theorem C87_current c p : off_loops c p -> (MIN_DISTANCE_AXIS <= norm_2d (vx p) (vy p) \/ vx p = 0 /\ vy p = 0) ->
  let r0 := norm_2d (vx p) (vy p) in let A q := far2 r0 (vz p) (vx q) (vz q) in let B q := near2 r0 (vz p) (vx q) (vz q) in let d q := vz p - vz q in
  let radial := 3e-13 * weight (fun q => Rabs (d q) / (2 * PI * r0 * sqrt (A q)) * ((d q ^ 2 + r0 ^ 2 + vx q ^ 2) / B q + 1)) c in
  (MIN_DISTANCE_AXIS <= r0 -> Rabs (vx (current_field p c) - vx (loop_field c p)) <= radial /\ Rabs (vy (current_field p c) - vy (loop_field c p)) <= radial) /\
  (vx p = 0 /\ vy p = 0 -> vx (current_field p c) = vx (loop_field c p) /\ vy (current_field p c) = vy (loop_field c p)) /\
  Rabs (vz (current_field p c) - vz (loop_field c p)) <= 3e-13 * weight (fun q => 1 / (2 * PI * sqrt (A q)) * (Rabs (vx q ^ 2 - d q ^ 2 - r0 ^ 2) / B q + 1)) c.
Proof.
  intros O Hp r0 A B d radial. unfold loop_field, sum_turns. rewrite <- (C57_biot_savart exact_km1 exact_em1 c p) by (try assumption; intros y _; reflexivity). change (current_field p c) with (current_field_of ellipk ellipe p c).
  assert (HK : forall k, 0 <= k < 1 -> Rabs (ellipk k - ellipk_of exact_km1 k) <= 3e-13). { intros k Hk. rewrite (proj1 (C51_first_kind_partial exact_km1)) by (try exact Hk; intros y _; reflexivity). apply C87_ellipk, Hk. }
  assert (HE : forall k, 0 <= k < 1 -> Rabs (ellipe k - ellipe_of exact_em1 k) <= 3e-13). { intros k Hk. rewrite (C51_second_kind exact_em1) by (try lra; intros y _; reflexivity). pose proof (C87_ellipe k ltac:(lra)) as Q. destruct (Rle_dec 0 k); [lra|lra]. }
  set (K := ellipk_of exact_km1) in *. set (E := ellipe_of exact_em1) in *. set (K' := ellipk) in *. set (E' := ellipe) in *. clearbody K E K' E'. pose proof PI_RGT_0 as Hpi. assert (R0 : 0 <= r0) by apply norm_2d_nonneg. assert (MP : 0 < MIN_DISTANCE_AXIS) by (unfold MIN_DISTANCE_AXIS; lra).
  assert (G : forall x, In x (q_items c) -> forall jp, In jp (snd x) -> let q := snd jp in MIN_DISTANCE_AXIS <= vx q /\ 0 < A q /\ 0 < B q /\ 0 <= 4 * r0 * vx q / A q < 1 /\ (vz p - vz q) ^ 2 + (vx q + r0) ^ 2 = A q /\ (vz p - vz q) ^ 2 + (r0 - vx q) ^ 2 = B q).
  { intros x Hx jp Hj q. destruct (O x jp Hx Hj) as (Ha & Hoff). fold q in Ha, Hoff. pose proof (near2_pos _ _ _ _ Hoff) as N. pose proof (far2_pos r0 (vz p) (vx q) (vz q) R0 ltac:(lra)) as F. fold r0 in N. split; [exact Ha|]. split; [exact F|]. split; [exact N|]. unfold A, B.
    pose proof (modulus_lt_1 _ _ _ _ F N) as M. unfold modulus in M. split; [split|].
    - apply Rmult_le_pos; [apply Rmult_le_pos; lra|left; apply Rinv_0_lt_compat, F].
    - replace (4 * r0 * vx q) with (4 * vx q * r0) by ring. exact M.
    - unfold far2, near2. split; ring. }
  assert (EZ : Rabs (evaluate (fun q => snd (current_field_radial_ring_of K' E' r0 (vz p) (vx q) (vz q))) c - evaluate (fun q => snd (current_field_radial_ring_of K E r0 (vz p) (vx q) (vz q))) c) <= 3e-13 * weight (fun q => 1 / (2 * PI * sqrt (A q)) * (Rabs (vx q ^ 2 - d q ^ 2 - r0 ^ 2) / B q + 1)) c).
  { rewrite evaluate_minus, <- weight_scale. apply evaluate_abs. intros x Hx jp Hj. destruct (G x Hx jp Hj) as (Ha & F & N & T & EA & EB). set (q := snd jp) in *. unfold current_field_radial_ring_of. rewrite EA, EB. destruct (Rlt_dec (vx q) MIN_DISTANCE_AXIS) as [L|_]; [lra|]. cbn [snd]. fold (d q). pose proof (HK _ T) as XK. pose proof (HE _ T) as XE. pose proof (sqrt_lt_R0 _ F) as S.
    set (k := 4 * r0 * vx q / A q) in *. set (g := vx q ^ 2 - d q ^ 2 - r0 ^ 2). set (a := sqrt (A q)) in *. set (b := B q) in *. assert (W : 0 < 1 / (2 * PI * a)) by (apply Rdiv_lt_0_compat; [lra|]; apply Rmult_lt_0_compat; lra).
    replace (1 / PI * 1 / (2 * a) * (g / b * E' k + K' k) - 1 / PI * 1 / (2 * a) * (g / b * E k + K k)) with (1 / (2 * PI * a) * (g / b * (E' k - E k) + (K' k - K k))) by (field; repeat split; lra).
    rewrite Rabs_mult, (Rabs_pos_eq (1 / _)) by lra. replace (3e-13 * (1 / (2 * PI * a) * (Rabs g / b + 1))) with (1 / (2 * PI * a) * (Rabs g / b * 3e-13 + 3e-13)) by ring. apply Rmult_le_compat_l; [lra|]. eapply Rle_trans; [apply Rabs_triang|]. apply Rplus_le_compat; [|exact XK].
    unfold Rdiv. rewrite !Rabs_mult, (Rabs_pos_eq (/ b)) by (left; apply Rinv_0_lt_compat, N). apply Rmult_le_compat_l; [apply Rmult_le_pos; [apply Rabs_pos|left; apply Rinv_0_lt_compat, N]|exact XE]. }
  unfold current_field_of, from_cylinder. fold r0. destruct (Rle_dec MIN_DISTANCE_AXIS r0) as [Hr0|Hr0].
  - cbn [vx vy vz].
    assert (ER : Rabs (evaluate (fun q => fst (current_field_radial_ring_of K' E' r0 (vz p) (vx q) (vz q))) c - evaluate (fun q => fst (current_field_radial_ring_of K E r0 (vz p) (vx q) (vz q))) c) <= radial).
    { unfold radial. rewrite evaluate_minus, <- weight_scale. apply evaluate_abs. intros x Hx jp Hj. destruct (G x Hx jp Hj) as (Ha & F & N & T & EA & EB). set (q := snd jp) in *. unfold current_field_radial_ring_of. rewrite EA, EB. destruct (Rlt_dec (vx q) MIN_DISTANCE_AXIS) as [L|_]; [lra|]. destruct (Rlt_dec r0 MIN_DISTANCE_AXIS) as [L|_]; [lra|]. cbn [fst]. fold (d q). pose proof (HK _ T) as XK. pose proof (HE _ T) as XE. pose proof (sqrt_lt_R0 _ F) as S.
      set (k := 4 * r0 * vx q / A q) in *. assert (Pg : 0 <= d q ^ 2 + r0 ^ 2 + vx q ^ 2) by nra. set (g := d q ^ 2 + r0 ^ 2 + vx q ^ 2) in *. set (a := sqrt (A q)) in *. set (b := B q) in *. assert (P0 : 0 < r0) by lra. assert (W : 0 < 2 * PI * r0 * a) by (apply Rmult_lt_0_compat; [apply Rmult_lt_0_compat|]; lra).
      replace (1 / PI * d q / (2 * r0 * a) * (g / b * E' k - K' k) - 1 / PI * d q / (2 * r0 * a) * (g / b * E k - K k)) with (d q / (2 * PI * r0 * a) * (g / b * (E' k - E k) - (K' k - K k))) by (field; repeat split; lra).
      assert (I : Rabs (d q / (2 * PI * r0 * a)) = Rabs (d q) / (2 * PI * r0 * a)) by (unfold Rdiv; rewrite Rabs_mult, (Rabs_pos_eq (/ _)) by (left; apply Rinv_0_lt_compat, W); reflexivity).
      rewrite Rabs_mult, I. replace (3e-13 * (Rabs (d q) / (2 * PI * r0 * a) * (g / b + 1))) with (Rabs (d q) / (2 * PI * r0 * a) * (g / b * 3e-13 + 3e-13)) by ring. apply Rmult_le_compat_l; [apply Rmult_le_pos; [apply Rabs_pos|left; apply Rinv_0_lt_compat, W]|]. eapply Rle_trans; [apply Rabs_triang|]. rewrite Rabs_Ropp. apply Rplus_le_compat; [|exact XK].
      assert (Gb : 0 <= g / b) by (apply Rmult_le_pos; [exact Pg|left; apply Rinv_0_lt_compat, N]). rewrite Rabs_mult, (Rabs_pos_eq (g / b)) by exact Gb. apply Rmult_le_compat_l; [exact Gb|exact XE]. }
    assert (M : 0 < r0) by lra.
    assert (C : forall u, u ^ 2 <= r0 ^ 2 -> forall y y', Rabs (y - y') <= radial -> Rabs (u / r0 * y - u / r0 * y') <= radial).
    { intros u Hu y y' Hy. replace (u / r0 * y - u / r0 * y') with (u / r0 * (y - y')) by (unfold Rdiv; ring). rewrite Rabs_mult. assert (U : Rabs (u / r0) <= 1). { unfold Rdiv. rewrite Rabs_mult, (Rabs_pos_eq (/ r0)) by (left; apply Rinv_0_lt_compat, M). apply (Rmult_le_reg_r r0); [exact M|]. rewrite Rmult_assoc, Rinv_l by lra. rewrite Rmult_1_r, Rmult_1_l. apply Rabs_le. split; nra. }
      apply Rle_trans with (1 * Rabs (y - y')); [apply Rmult_le_compat_r; [apply Rabs_pos|exact U]|lra]. }
    assert (SQ : r0 ^ 2 = vx p ^ 2 + vy p ^ 2) by (unfold r0, norm_2d; rewrite pow2_sqrt by nra; ring).
    split; [intros _; split; apply C; try exact ER; nra|]. split; [intros [X Y]; rewrite X, Y in SQ; nra|]. exact EZ.
  - cbn [vx vy vz]. split; [intros H; contradiction|]. split; [intros _; split; reflexivity|]. exact EZ.
Qed.
Print Assumptions C87_current.
(** A ring of radius 2 seen from a point at distance 1 from the axis, where the bounds are small numbers. *)
Example C87_nonvacuous : exists c p, off_rings c p /\ off_loops c p /\ MIN_DISTANCE_AXIS <= norm_2d (vx p) (vy p) /\
  3e-13 * weight (fun q => vx q / (PI * sqrt (far2 (norm_2d (vx p) (vy p)) (vz p) (vx q) (vz q)))) c <= 3e-13 /\ 1 / 100 <= potential_radial_of exact_km1 p c.
Proof.
  exists (mkcharges LINE_RULE [(1, [(1, V3 2 0 0)])]), (V3 1 0 1). assert (n1 : norm_2d 1 0 = 1) by (unfold norm_2d; replace (1 * 1 + 0 * 0) with 1 by ring; exact sqrt_1). pose proof PI_RGT_0 as Hpi.
  assert (F : far2 1 1 2 0 = 10) by (unfold far2; ring). assert (N : near2 1 1 2 0 = 2) by (unfold near2; ring). assert (S3 : 3 <= sqrt 10 <= 4) by (split; [rewrite <- (sqrt_square 3) by lra; apply sqrt_le_1; lra|rewrite <- (sqrt_square 4) by lra; apply sqrt_le_1; lra]).
  split; [intros x jp [<-|[]] [<-|[]]; cbn [vx vy vz snd]; rewrite n1; split; [lra|intros [? ?]; lra]|]. split; [intros x jp [<-|[]] [<-|[]]; cbn [vx vy vz snd]; rewrite n1; split; [unfold MIN_DISTANCE_AXIS; lra|intros [? ?]; lra]|]. cbn [vx vy vz]. rewrite n1. split; [unfold MIN_DISTANCE_AXIS; lra|].
  assert (PB : 3 <= PI <= 4) by (pose proof PI_4; pose proof PI2_3_2; lra).
  assert (D : 0 < PI * sqrt 10) by (apply Rmult_lt_0_compat; lra). assert (D9 : 9 <= PI * sqrt 10 <= 16) by nra. split.
  - unfold weight. cbn [q_items map fst snd vx vy vz Rsum]. rewrite F. rewrite !Rabs_R1. assert (2 / (PI * sqrt 10) <= 1); [|lra]. apply (Rmult_le_reg_r (PI * sqrt 10)); [exact D|]. unfold Rdiv. rewrite Rmult_assoc, Rinv_l by lra. lra.
  - unfold potential_radial_of, evaluate, source_sum. cbn [q_items map fst snd vx vy vz Rsum]. rewrite n1, ring_potential_exact by (rewrite F; lra). rewrite F. assert (L : modulus 1 1 2 0 = 1 - 1 / 5) by (unfold modulus; rewrite F; lra).
    pose proof (k_pos (1 / 5) ltac:(lra)) as K1. cbv zeta beta in K1. rewrite <- L in K1. set (k := elliptic_K (modulus 1 1 2 0)) in *. replace (1 * (1 * (2 / PI * (k / sqrt 10)) + 0) + 0) with (2 * k / (PI * sqrt 10)) by (field; lra). apply (Rmult_le_reg_r (PI * sqrt 10)); [exact D|]. replace (2 * k / (PI * sqrt 10) * (PI * sqrt 10)) with (2 * k) by (field; lra). lra.
Qed.
