(** The value that potential_triangle gives at the centroid of the triangle itself. *)
From Coq Require Import Reals Lra Lia Psatz.
From Coquelicot Require Import Coquelicot.
From Verif Require Import Base Vec GeomModel GeomFacts TriangleModel TriangleSpec TriangleFacts SelfPotFacts TriangleClosedFacts.
Local Open Scope R_scope.

Lemma rowG0_derive_pos (A b u : R) : A <> 0 -> 0 < u -> is_derive (rowG0 A b) u (arcsinh ((A + b * u) / Rabs u)).
Proof.
  intros HA Hu. assert (Ps : 0 < 1 + b * b) by nra. assert (PA : 0 < A * A) by (pose proof (Rsqr_pos_lt A HA); unfold Rsqr in *; lra). pose proof (Rabs_pos_lt A HA) as PB.
  assert (PR : 0 < u * u + (A + b * u) * (A + b * u)) by (pose proof (Rle_0_sqr (A + b * u)) as Q; unfold Rsqr in Q; nra).
  pose proof (sqrt_lt_R0 _ Ps) as Ss. pose proof (sqrt_lt_R0 _ PR) as SR. pose proof (sqrt_sqrt _ (Rlt_le _ _ Ps)) as Es. pose proof (sqrt_sqrt _ (Rlt_le _ _ PR)) as ER.
  set (s := sqrt (1 + b * b)) in *. set (w := sqrt (u * u + (A + b * u) * (A + b * u))) in *.
  assert (EB : Rabs A * Rabs A = A * A) by (rewrite <- Rabs_mult; apply Rabs_right; lra).
  assert (D1 : is_derive (fun u => arcsinh ((A + b * u) / u)) u (- A / (u * w))).
  { eapply is_derive_eq; [|apply (arcsinh_comp_derive (fun u => (A + b * u) / u) u (- A / (u * u)))].
    - assert (E : sqrt ((A + b * u) / u * ((A + b * u) / u) + 1) = w / u).
      { apply sqrt_lem_1; [match goal with |- 0 <= ?x * ?x + 1 => pose proof (Rle_0_sqr x); unfold Rsqr in *; lra end|apply Rdiv_le_0_compat; lra|].
        transitivity (w * w / (u * u)); [field; lra|]. rewrite ER. field. lra. }
      rewrite E. field. lra.
    - auto_derive; [lra|]. field. lra. }
  assert (D2 : is_derive (fun u => A / s * arcsinh (((1 + b * b) * u + A * b) / Rabs A)) u (A / w)).
  { assert (D : is_derive (fun u => arcsinh (((1 + b * b) * u + A * b) / Rabs A)) u (s / w)).
    { eapply is_derive_eq; [|apply (arcsinh_comp_derive (fun u => ((1 + b * b) * u + A * b) / Rabs A) u ((1 + b * b) / Rabs A)); set (k := Rabs A) in *; clearbody k; auto_derive; [lra|field; lra]].
      assert (E : sqrt (((1 + b * b) * u + A * b) / Rabs A * (((1 + b * b) * u + A * b) / Rabs A) + 1) = s * w / Rabs A).
      { apply sqrt_lem_1; [match goal with |- 0 <= ?x * ?x + 1 => pose proof (Rle_0_sqr x); unfold Rsqr in *; lra end|apply Rdiv_le_0_compat; [apply Rmult_le_pos; lra|lra]|].
        transitivity ((s * s) * (w * w) / (Rabs A * Rabs A)); [field; lra|]. rewrite ER, Es.
        transitivity (((1 + b * b) * u + A * b) * ((1 + b * b) * u + A * b) / (Rabs A * Rabs A) + 1); [rewrite EB; field; lra|field; lra]. }
      rewrite E, <- Es. field. repeat split; lra. }
    apply (is_derive_scal _ _ (A / s)) in D. eapply is_derive_eq; [|exact D]. field. split; lra. }
  apply (is_derive_ext_loc (fun u => u * arcsinh ((A + b * u) / u) + A / s * arcsinh (((1 + b * b) * u + A * b) / Rabs A))).
  { exists (mkposreal u Hu). intros v Hv. unfold ball in Hv; cbn in Hv. unfold AbsRing_ball, abs, minus, plus, opp in Hv; cbn in Hv. apply Rabs_lt_between in Hv. unfold rowG0. rewrite (Rabs_right v) by lra. reflexivity. }
  rewrite (Rabs_right u) by lra.
  pose proof (is_derive_mult (fun u => u) _ u 1 _ (is_derive_id u) D1 Rmult_comm) as M.
  eapply is_derive_eq; [|exact (is_derive_plus _ _ u _ _ M D2)]. unfold plus, mult; cbn. unfold plus, mult; cbn. set (k := arcsinh _). clearbody k w. field. lra.
Qed.
Lemma rowG0_mirror A b u : rowG0 A b u = - rowG0 A (- b) (- u).
Proof.
  unfold rowG0. rewrite Rabs_Ropp. replace (- b * - b) with (b * b) by ring. replace (A + - b * - u) with (A + b * u) by ring.
  replace (((1 + b * b) * - u + A * - b) / Rabs A) with (- (((1 + b * b) * u + A * b) / Rabs A)) by (unfold Rdiv; ring). rewrite arcsinh_odd. ring.
Qed.
Lemma rowG0_derive (A b u : R) : A <> 0 -> u <> 0 -> is_derive (rowG0 A b) u (arcsinh ((A + b * u) / Rabs u)).
Proof.
  intros HA Hu. destruct (Rlt_dec 0 u) as [P|P]; [apply rowG0_derive_pos; assumption|]. assert (Q : 0 < - u) by lra.
  apply (is_derive_ext (fun u => - rowG0 A (- b) (- u))); [intros v; symmetry; apply rowG0_mirror|].
  assert (D : is_derive (fun u => - u) u (- 1)) by (auto_derive; [auto|ring]).
  pose proof (is_derive_comp (rowG0 A (- b)) _ u _ _ (rowG0_derive_pos A (- b) (- u) HA Q) D) as C. apply is_derive_opp in C.
  eapply is_derive_eq; [|exact C]. unfold scal, opp; cbn. unfold mult, opp; cbn. rewrite Rabs_Ropp. replace (A + - b * - u) with (A + b * u) by ring. ring.
Qed.
Lemma row0_continuous (A b y0 y : R) : y + y0 <> 0 -> continuous (fun y => arcsinh ((A + b * (y + y0)) / Rabs (y + y0))) y.
Proof.
  intros H. pose proof (Rabs_pos_lt _ H) as P.
  apply (continuous_comp (fun y => (A + b * (y + y0)) / Rabs (y + y0)) arcsinh).
  - apply (continuous_mult (K := R_AbsRing)).
    + apply (ex_derive_continuous (V := R_NormedModule)). auto_derive. auto.
    + apply (continuous_comp (fun y => Rabs (y + y0)) Rinv).
      * apply (continuous_comp (fun y => y + y0) Rabs); [apply (ex_derive_continuous (V := R_NormedModule)); auto_derive; auto|apply continuous_Rabs].
      * apply continuous_Rinv. lra.
  - apply (ex_derive_continuous (V := R_NormedModule)). eexists. apply arcsinh_derive.
Qed.
(** The rows on one side of the target. *)
Lemma side_integral t lo hi : nt_z t = 0 -> 0 < nt_c t -> max_A t <> 0 -> min_A t <> 0 -> lo <= hi -> (forall y, lo <= y <= hi -> 1e-12 <= Rabs (y + nt_y0 t)) ->
  is_RInt (potential_integrand t) lo hi
    ((rowG0 (max_A t) (max_b t) (hi + nt_y0 t) - rowG0 (min_A t) (min_b t) (hi + nt_y0 t)) - (rowG0 (max_A t) (max_b t) (lo + nt_y0 t) - rowG0 (min_A t) (min_b t) (lo + nt_y0 t))).
Proof.
  intros Z Pc A1 A2 Hl Hr. assert (Nz : forall y, lo <= y <= hi -> y + nt_y0 t <> 0) by (intros y Hy E; specialize (Hr y Hy); rewrite E, Rabs_R0 in Hr; lra).
  assert (Nc : nt_c t <> 0) by lra.
  apply (is_RInt_ext (fun y => arcsinh ((max_A t + max_b t * (y + nt_y0 t)) / Rabs (y + nt_y0 t)) - arcsinh ((min_A t + min_b t * (y + nt_y0 t)) / Rabs (y + nt_y0 t)))).
  - intros y Hy. rewrite Rmin_left, Rmax_right in Hy by lra. unfold potential_integrand. rewrite <- max_row, <- min_row by exact Nc. rewrite Z.
    replace ((y + nt_y0 t) * (y + nt_y0 t) + 0 * 0) with (Rsqr (y + nt_y0 t)) by (unfold Rsqr; ring). rewrite sqrt_Rsqr_abs.
    destruct (Rlt_dec _ _) as [L|_]; [|reflexivity]. specialize (Hr y). lra.
  - apply (is_RInt_derive (fun y => rowG0 (max_A t) (max_b t) (y + nt_y0 t) - rowG0 (min_A t) (min_b t) (y + nt_y0 t))).
    + intros y Hy. rewrite Rmin_left, Rmax_right in Hy by lra. specialize (Nz y Hy).
      assert (D : is_derive (fun y => y + nt_y0 t) y 1) by (auto_derive; [auto|ring]).
      apply (is_derive_minus (V := R_NormedModule)).
      * eapply is_derive_eq; [|exact (is_derive_comp (rowG0 (max_A t) (max_b t)) _ y _ _ (rowG0_derive _ _ _ A1 Nz) D)]. unfold scal; cbn. unfold mult; cbn. ring.
      * eapply is_derive_eq; [|exact (is_derive_comp (rowG0 (min_A t) (min_b t)) _ y _ _ (rowG0_derive _ _ _ A2 Nz) D)]. unfold scal; cbn. unfold mult; cbn. ring.
    + intros y Hy. rewrite Rmin_left, Rmax_right in Hy by lra. apply (continuous_minus (V := R_NormedModule)); apply row0_continuous; apply Nz; exact Hy.
Qed.

(** ** The band of rows closer than 1e-12 *)
Lemma arcsinh_lipschitz p q : Rabs (arcsinh p - arcsinh q) <= Rabs (p - q).
Proof.
  destruct (MVT_gen arcsinh q p (fun x => / sqrt (x ^ 2 + 1))) as (c & _ & E).
  - intros x _. apply arcsinh_derive.
  - intros x _. apply continuity_pt_filterlim. apply (ex_derive_continuous (V := R_NormedModule)). eexists. apply arcsinh_derive.
  - rewrite E, Rabs_mult. assert (P : 1 <= sqrt (c ^ 2 + 1)) by (rewrite <- sqrt_1 at 1; apply sqrt_le_1_alt; pose proof (pow2_ge_0 c); lra).
    rewrite (Rabs_right (/ _)) by (left; apply Rinv_0_lt_compat; lra). pose proof (Rabs_pos (p - q)).
    pose proof (Rinv_le_contravar 1 (sqrt (c ^ 2 + 1)) Rlt_0_1 P) as Q. rewrite Rinv_1 in Q. nra.
Qed.
Lemma arcsinh_abs_le x m : Rabs x <= m -> Rabs (arcsinh x) <= arcsinh m.
Proof.
  intros H. apply Rabs_le_between in H. apply Rabs_le. split; [rewrite <- arcsinh_odd|]; apply arcsinh_le; lra.
Qed.
Definition band_jump A b d : R := rowG0 A b d - rowG0 A b (- d).
Lemma band_jump_bound A b d a : A <> 0 -> 0 < d -> Rabs (A + b * d) <= a -> Rabs (A - b * d) <= a ->
  Rabs (band_jump A b d) <= 2 * d * (arcsinh (a / d) + sqrt (1 + b * b)).
Proof.
  intros HA Hd H1 H2. pose proof (Rabs_pos_lt A HA) as PA. assert (Ps : 0 < 1 + b * b) by nra. pose proof (sqrt_lt_R0 _ Ps) as Ss. pose proof (sqrt_sqrt _ (Rlt_le _ _ Ps)) as Es.
  set (s := sqrt (1 + b * b)) in *.
  assert (E : band_jump A b d = d * (arcsinh ((A + b * d) / d) + arcsinh ((A - b * d) / d)) +
     A / s * (arcsinh (((1 + b * b) * d + A * b) / Rabs A) - arcsinh (((1 + b * b) * - d + A * b) / Rabs A))).
  { unfold band_jump, rowG0. rewrite Rabs_Ropp, (Rabs_right d) by lra. fold s. replace (A + b * - d) with (A - b * d) by ring. ring. }
  rewrite E. eapply Rle_trans; [apply Rabs_triang|].
  assert (B : forall x, Rabs x <= a -> Rabs (arcsinh (x / d)) <= arcsinh (a / d)).
  { intros x Hx. apply arcsinh_abs_le. unfold Rdiv. rewrite Rabs_mult, (Rabs_right (/ d)) by (left; apply Rinv_0_lt_compat; exact Hd). apply Rmult_le_compat_r; [left; apply Rinv_0_lt_compat; exact Hd|exact Hx]. }
  assert (T1 : Rabs (d * (arcsinh ((A + b * d) / d) + arcsinh ((A - b * d) / d))) <= 2 * d * arcsinh (a / d)).
  { rewrite Rabs_mult, (Rabs_right d) by lra. pose proof (Rabs_triang (arcsinh ((A + b * d) / d)) (arcsinh ((A - b * d) / d))). pose proof (B _ H1). pose proof (B _ H2). nra. }
  assert (T2 : Rabs (A / s * (arcsinh (((1 + b * b) * d + A * b) / Rabs A) - arcsinh (((1 + b * b) * - d + A * b) / Rabs A))) <= 2 * d * s).
  { rewrite Rabs_mult. eapply Rle_trans; [apply Rmult_le_compat_l; [apply Rabs_pos|apply arcsinh_lipschitz]|].
    replace (((1 + b * b) * d + A * b) / Rabs A - ((1 + b * b) * - d + A * b) / Rabs A) with (2 * d * (s * s) / Rabs A) by (rewrite Es; field; lra).
    rewrite (Rabs_right (2 * d * (s * s) / Rabs A)) by (apply Rle_ge, Rdiv_le_0_compat; nra). unfold Rdiv. rewrite Rabs_mult, (Rabs_right (/ s)) by (left; apply Rinv_0_lt_compat; exact Ss).
    right. field. lra. }
  lra.
Qed.
Lemma ln_between x y m : 0 < m -> m <= x <= 3 * m -> m <= y <= 3 * m -> Rabs (ln x - ln y) <= 2.
Proof.
  intros Hm Hx Hy. assert (L3 : ln 3 <= 2).
  { rewrite <- (ln_exp 2). left. apply ln_increasing; [lra|]. pose proof (exp_ineq1 2 ltac:(lra)). lra. }
  assert (B : forall z, m <= z <= 3 * m -> ln m <= ln z <= ln m + 2).
  { intros z Hz. split.
    - destruct (Req_dec m z) as [->|N]; [lra|]. left. apply ln_increasing; lra.
    - assert (ln z <= ln (3 * m)) by (destruct (Req_dec z (3 * m)) as [->|N]; [lra|left; apply ln_increasing; lra]). rewrite ln_mult in H by lra. lra. }
  pose proof (B x Hx). pose proof (B y Hy). apply Rabs_le. lra.
Qed.
(** A triangle seen from its centroid. *)
Lemma diagonal_bound t d : d = 1e-12 -> nt_z t = 0 -> 0 < nt_c t -> 0 < nt_a t -> max_A t = nt_a t / 3 -> min_A t = - (nt_a t / 3) -> nt_y0 t = - (nt_c t / 3) ->
  d * 6 <= nt_c t -> d * Rabs (max_b t) <= nt_a t / 6 -> d * Rabs (min_b t) <= nt_a t / 6 ->
  Rabs (RInt (potential_integrand t) 0 (nt_c t) - rows_between rowG0 t) <= 2 * d * (2 * arcsinh (nt_a t / d) + sqrt (1 + max_b t * max_b t) + sqrt (1 + min_b t * min_b t) + 2).
Proof.
  intros Ed Z Pc Pa EA EB EY Hc Hb1 Hb2. assert (Pd : 0 < d) by lra. set (c := nt_c t) in *. set (a := nt_a t) in *.
  assert (NA : max_A t <> 0) by (rewrite EA; lra). assert (NB : min_A t <> 0) by (rewrite EB; lra).
  assert (Nc : nt_c t <> 0) by (fold c; lra).
  assert (S1 := side_integral t 0 (c / 3 - d) Z Pc NA NB ltac:(lra)). assert (S2 := side_integral t (c / 3 + d) c Z Pc NA NB ltac:(lra)). rewrite EY in S1, S2.
  specialize (S1 ltac:(intros y Hy; rewrite Rabs_left by lra; lra)). specialize (S2 ltac:(intros y Hy; rewrite Rabs_right by lra; lra)).
  set (L := fun y => ln (Rabs (nt_xmax t y)) - ln (Rabs (nt_xmin t y))).
  assert (Bnd : forall y, c / 3 - d <= y <= c / 3 + d -> a / 6 <= nt_xmax t y <= 3 * (a / 6) /\ a / 6 <= - nt_xmin t y <= 3 * (a / 6)).
  { intros y Hy. rewrite <- max_row, <- min_row by exact Nc. rewrite EA, EB, EY. set (u := y + - (c / 3)). assert (Hu : Rabs u <= d) by (apply Rabs_le; unfold u; lra).
    assert (Q1 : Rabs (max_b t * u) <= a / 6) by (rewrite Rabs_mult; pose proof (Rabs_pos (max_b t)); pose proof (Rabs_pos u); nra).
    assert (Q2 : Rabs (min_b t * u) <= a / 6) by (rewrite Rabs_mult; pose proof (Rabs_pos (min_b t)); pose proof (Rabs_pos u); nra).
    apply Rabs_le_between in Q1. apply Rabs_le_between in Q2. lra. }
  assert (ExL : ex_RInt L (c / 3 - d) (c / 3 + d)).
  { apply (ex_RInt_continuous (V := R_CompleteNormedModule)). intros y Hy. rewrite Rmin_left, Rmax_right in Hy by lra. destruct (Bnd y Hy) as [B1 B2]. unfold L.
    assert (Cl : forall (f : R -> R) x, ex_derive f x -> f x <> 0 -> continuous (fun y => ln (Rabs (f y))) x).
    { intros f x D Nf. apply (continuous_comp (fun y => Rabs (f y)) ln); [apply (continuous_comp f Rabs); [apply (ex_derive_continuous (V := R_NormedModule)); exact D|apply continuous_Rabs]|].
      apply (ex_derive_continuous (V := R_NormedModule)). eexists. apply is_derive_ln. apply Rabs_pos_lt. exact Nf. }
    apply (continuous_minus (V := R_NormedModule)); (apply Cl; [unfold nt_xmax, nt_xmin; auto_derive; exact Logic.I|]); [apply Rgt_not_eq; lra|apply Rlt_not_eq; lra]. }
  assert (IL : is_RInt (potential_integrand t) (c / 3 - d) (c / 3 + d) (RInt L (c / 3 - d) (c / 3 + d))).
  { apply (is_RInt_ext L); [|apply (RInt_correct (V := R_CompleteNormedModule)); exact ExL]. intros y Hy. rewrite Rmin_left, Rmax_right in Hy by lra. unfold potential_integrand, L. rewrite Z.
    replace ((y + nt_y0 t) * (y + nt_y0 t) + 0 * 0) with (Rsqr (y + nt_y0 t)) by (unfold Rsqr; ring). rewrite sqrt_Rsqr_abs, EY.
    destruct (Rlt_dec _ _) as [_|G]; [reflexivity|]. exfalso. apply G. rewrite <- Ed. apply Rabs_def1; lra. }
  pose proof (is_RInt_Chasles _ _ _ _ _ _ (is_RInt_Chasles _ _ _ _ _ _ S1 IL) S2) as I. pose proof (is_RInt_unique (V := R_CompleteNormedModule) _ _ _ _ I) as I'. rewrite I'. clear I'.
  assert (BL : Rabs (RInt L (c / 3 - d) (c / 3 + d)) <= 2 * d * 2).
  { replace (2 * d) with (c / 3 + d - (c / 3 - d)) by ring. apply abs_RInt_le_const; [lra|exact ExL|]. intros y Hy. destruct (Bnd y Hy) as [B1 B2]. unfold L.
    rewrite (Rabs_right (nt_xmax t y)), (Rabs_left (nt_xmin t y)) by lra. apply (ln_between _ _ (a / 6)); lra. }
  pose proof (band_jump_bound (max_A t) (max_b t) d a NA Pd) as J1. pose proof (band_jump_bound (min_A t) (min_b t) d a NB Pd) as J2.
  assert (Q1 : Rabs (max_b t * d) <= a / 6) by (rewrite Rabs_mult, (Rabs_right d) by lra; lra). assert (Q2 : Rabs (min_b t * d) <= a / 6) by (rewrite Rabs_mult, (Rabs_right d) by lra; lra).
  apply Rabs_le_between in Q1. apply Rabs_le_between in Q2.
  specialize (J1 ltac:(apply Rabs_le; lra) ltac:(apply Rabs_le; lra)). specialize (J2 ltac:(apply Rabs_le; lra) ltac:(apply Rabs_le; lra)).
  unfold rows_between, band_jump in *. fold c. rewrite EY. clear I S1 S2 IL. set (RL := RInt L (c / 3 - d) (c / 3 + d)) in *. clearbody RL. change (@plus R_CompleteNormedModule) with Rplus. change (@plus R_NormedModule) with Rplus. change (@zero R_NormedModule) with 0.
  replace (0 + - (c / 3)) with (- (c / 3)) by ring. replace (c / 3 - d + - (c / 3)) with (- d) by ring. replace (c / 3 + d + - (c / 3)) with d by ring. rewrite (Rplus_comm c).
  set (g1 := rowG0 (max_A t) (max_b t) (- d)) in *. set (g2 := rowG0 (min_A t) (min_b t) (- d)) in *. set (g3 := rowG0 (max_A t) (max_b t) d) in *. set (g4 := rowG0 (min_A t) (min_b t) d) in *.
  clearbody g1 g2 g3 g4. apply Rabs_le_between in BL. apply Rabs_le_between in J1. apply Rabs_le_between in J2. apply Rabs_le. fold a. 
  generalize (rowG0 (max_A t) (max_b t) (- (c / 3))) (rowG0 (min_A t) (min_b t) (- (c / 3))) (rowG0 (max_A t) (max_b t) (- (c / 3) + c)) (rowG0 (min_A t) (min_b t) (- (c / 3) + c)).
  intros. change R in RL. lra.
Qed.

(** ** The diagonal of the solver *)
Lemma centroid_bound v0 v1 v2 l : nondegenerate v0 v1 v2 -> dist3 v2 v0 <= l -> dist3 v2 v1 <= l ->
  let a := dist3 v1 v0 in let area2 := norm (cross (vsub v1 v0) (vsub v2 v0)) in let height := area2 / a in
  6e-12 <= height -> 6e-12 * l <= area2 ->
  let p := triangle_point v0 v1 v2 (1 / 3) (1 / 3) in
  Rabs (potential_triangle (fun f lo hi => RInt f lo hi) v0 v1 v2 p - self_potential_triangle v0 v1 v2 p) <= 4e-12 * (arcsinh (a / 1e-12) + l / height + 1).
Proof.
  intros N L1 L2 a area2 height H1 H2 p.
  assert (I : strictly_inside v0 v1 v2 p) by (exists (1 / 3), (1 / 3); repeat split; lra).
  destruct (inside_signs _ _ _ _ N I) as (Z & _ & _ & _ & Pa & Pc). cbv zeta in *.
  destruct (inside_normalized v0 v1 v2 (1 / 3) (1 / 3) N) as (X & Y & _). cbv zeta in *. fold p in X, Y.
  destruct (triangle_frame _ _ _ N) as ([Oxx Oyy Ozz Oxy Oxz Oyz] & _ & E1 & E2 & _). cbv zeta in *.
  destruct (row_bounds v0 v1 v2 p 0 N) as (_ & _ & Ac & _). cbv zeta in *. fold area2 in Ac.
  rewrite <- (rows_between_self v0 v1 v2 p N I). unfold potential_triangle. set (t := normalized v0 v1 v2 p) in *. cbv zeta.
  set (x := x_axis v0 v1) in *. set (y := y_axis v0 v1 v2) in *.
  assert (Ea : nt_a t = a) by reflexivity. assert (Eb : nt_b t = dot (vsub v2 v0) x) by reflexivity. assert (Ec : nt_c t = dot (vsub v2 v0) y) by reflexivity.
  fold (dist3 v1 v0) in E1. fold a in E1. rewrite <- Eb, <- Ec in E2. rewrite Ea in *.
  set (b := nt_b t) in *. set (c := nt_c t) in *.
  assert (Eh : height = c) by (unfold height; rewrite <- Ac; field; lra). rewrite Eh in *.
  assert (S2 : dist3 v2 v0 = c * sqrt (1 + min_b t * min_b t)).
  { unfold dist3. rewrite E2. fold (pl x y b c). rewrite (pl_norm x y Oxx Oyy Oxy), <- (sqrt_pull c _ Pc). f_equal. unfold min_b. fold b c. field. lra. }
  assert (S1 : dist3 v2 v1 = c * sqrt (1 + max_b t * max_b t)).
  { unfold dist3. replace (vsub v2 v1) with (pl x y (b - a) c).
    - rewrite (pl_norm x y Oxx Oyy Oxy), <- (sqrt_pull c _ Pc). f_equal. unfold max_b. rewrite Ea. fold b c. field. lra.
    - transitivity (vsub (vsub v2 v0) (vsub v1 v0)); [rewrite E1, E2; unfold pl|]; apply vec_eq; unfold vsub, vadd, vscale; cbn [vx vy vz]; ring. }
  assert (B : forall k, c * sqrt (1 + k * k) <= l -> sqrt (1 + k * k) <= l / c /\ 1e-12 * Rabs k <= a / 6).
  { intros k Hk. assert (Q : sqrt (1 + k * k) <= l / c) by (apply (Rmult_le_reg_l c); [exact Pc|]; replace (c * (l / c)) with l by (field; lra); exact Hk).
    split; [exact Q|]. assert (Rabs k <= sqrt (1 + k * k)).
    { rewrite <- sqrt_Rsqr_abs. apply sqrt_le_1_alt. unfold Rsqr. lra. }
    apply (Rmult_le_reg_l (6 * c)); [lra|]. replace (6 * c * (a / 6)) with (a * c) by field. rewrite Ac. nra. }
  destruct (B _ ltac:(rewrite <- S1; exact L2)) as [B1 B2]. destruct (B _ ltac:(rewrite <- S2; exact L1)) as [B3 B4].
  assert (EA : max_A t = a / 3) by (unfold max_A, max_b; rewrite X, Y, Ea; fold b c; field; lra).
  assert (EB : min_A t = - (a / 3)) by (unfold min_A, min_b; rewrite X, Y; fold b c; field; lra).
  pose proof (diagonal_bound t 1e-12 eq_refl Z) as D. rewrite Ea in D. 
  specialize (D Pc Pa EA EB ltac:(rewrite Y; unfold c; lra) ltac:(fold c; lra) B2 B4). eapply Rle_trans; [exact D|]. lra.
Qed.
