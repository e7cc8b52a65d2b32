(** The complete elliptic integrals near the parameter one. *)
From Coq Require Import Reals Lra Lia Psatz.
From Coquelicot Require Import Coquelicot.
From Verif Require Import SeriesFacts EllipticSpec EllipticFacts EllipticSeries EllipticExpand.
Local Open Scope R_scope.

(** ** Leading terms *)
Definition delta (x t : R) : R := sqrt (1 - (1 - x) * sin t ^ 2).
Lemma delta_positive x t : 0 < x -> 0 < delta x t. Proof. intros H. apply delta_sqrt_pos. lra. Qed.
Lemma delta_sq x t : 0 < x -> delta x t * delta x t = cos t * cos t + x * (sin t * sin t).
Proof. intros H. unfold delta. rewrite sqrt_sqrt by (left; apply delta_pos; lra). pose proof (sin2_cos2 t) as E. unfold Rsqr in E. cbn. nra. Qed.
Lemma quarter t : 0 < t < PI / 2 -> 0 < sin t < 1 /\ 0 < cos t < 1.
Proof.
  intros H. pose proof PI_RGT_0. assert (S : 0 < sin t) by (apply sin_gt_0; lra). assert (C : 0 < cos t) by (apply cos_gt_0; lra).
  pose proof (sin2_cos2 t) as E. unfold Rsqr in E. split; split; try assumption; nra.
Qed.
Lemma delta_bounds x t : 0 < x -> 0 < t < PI / 2 -> cos t <= delta x t <= cos t + sqrt x.
Proof.
  intros H Ht. destruct (quarter t Ht) as [S C]. pose proof (delta_sq x t H) as Q. pose proof (delta_positive x t H) as P. pose proof (sqrt_lt_R0 x H) as X. pose proof (sqrt_sqrt x (Rlt_le _ _ H)) as XX.
  set (d := delta x t) in *. set (r := sqrt x) in *. clearbody d r. assert (0 <= sin t * sin t <= 1) by nra. assert (0 <= x * (sin t * sin t) <= x) by nra. assert (0 < cos t * r) by nra.
  split; apply Rsqr_incr_0_var; try lra; unfold Rsqr; rewrite Q; nra.
Qed.
Lemma delta_continuous x t : 0 < x -> continuous (delta x) t. Proof. intros H. apply E_continuous. lra. Qed.
Lemma delta_derive x t : 0 < x -> is_derive (delta x) t (- (1 - x) * (sin t * cos t) / delta x t).
Proof.
  intros H. pose proof (delta_pos (1 - x) t ltac:(lra)) as P. pose proof (delta_positive x t H) as Q. unfold delta in *. auto_derive; dnorm (1 - x) t; [conds|].
  change (1 + - ((1 - x) * (sin t * sin t))) with (1 - (1 - x) * (sin t * sin t)). set (w := sqrt (1 - (1 - x) * (sin t * sin t))) in *. req. field. lra.
Qed.
Lemma cont_of_derive (f : R -> R) x l : is_derive f x l -> continuous f x.
Proof. intros D. apply (ex_derive_continuous (V := R_NormedModule)). exists l. exact D. Qed.
Lemma inv_delta_continuous x t : 0 < x -> continuous (fun t => / delta x t) t. Proof. intros H. apply K_continuous. lra. Qed.
Lemma prod_continuous (f g : R -> R) t : continuous f t -> continuous g t -> continuous (fun t => f t * g t) t.
Proof. intros F G. apply (continuous_mult (K := R_AbsRing) f g t F G). Qed.
Lemma sin_over_continuous x t : 0 < x -> continuous (fun t => sin t * / delta x t) t.
Proof. intros H. apply prod_continuous; [apply (ex_derive_continuous (V := R_NormedModule)); auto_derive; exact I|apply inv_delta_continuous, H]. Qed.
Lemma rest_continuous x t : 0 < x -> continuous (fun t => (1 - sin t) * / delta x t) t.
Proof. intros H. apply prod_continuous; [apply (ex_derive_continuous (V := R_NormedModule)); auto_derive; exact I|apply inv_delta_continuous, H]. Qed.
Lemma first_part x : 0 < x < 1 -> RInt (fun t => sin t * / delta x t) 0 (PI / 2) = (ln (1 + sqrt (1 - x)) - ln x / 2) / sqrt (1 - x).
Proof.
  intros H. set (s := sqrt (1 - x)). assert (S : 0 < s) by (apply sqrt_lt_R0; lra). assert (SS : s * s = 1 - x) by (apply sqrt_sqrt; lra). pose proof PI_RGT_0 as HPI.
  set (F := fun t => - / s * ln (s * cos t + delta x t)). apply is_RInt_unique.
  assert (Pos : forall t, 0 <= t <= PI / 2 -> 0 < s * cos t + delta x t).
  { intros t Ht. pose proof (delta_positive x t ltac:(lra)). assert (0 <= cos t) by (apply cos_ge_0; lra). nra. }
  replace ((ln (1 + s) - ln x / 2) / s) with (minus (F (PI / 2)) (F 0)).
  - apply (is_RInt_derive (V := R_CompleteNormedModule) F (fun t => sin t * / delta x t)).
    + intros t Ht. rewrite Rmin_left, Rmax_right in Ht by lra. specialize (Pos t Ht). pose proof (delta_positive x t ltac:(lra)) as P. unfold F.
      assert (D : is_derive (fun t => s * cos t + delta x t) t (s * - sin t + - (1 - x) * (sin t * cos t) / delta x t)).
      { apply is_derive_plus_R; [apply is_derive_scal_R; apply is_derive_cos|apply delta_derive; lra]. }
      eapply is_derive_eq.
      * apply is_derive_scal_R. apply (is_derive_comp ln (fun t => s * cos t + delta x t)); [|exact D]. apply is_derive_Reals. apply derivable_pt_lim_ln. exact Pos.
      * change scal with Rmult. change mult with Rmult. rewrite <- SS. set (d := delta x t) in *. set (c := cos t) in *. clearbody d c. req. unfold scal; cbn; unfold mult; cbn. field. repeat split; lra.
    + intros t _. apply sin_over_continuous. lra.
  - change (F (PI / 2) - F 0 = (ln (1 + s) - ln x / 2) / s). unfold F.
    assert (D1 : delta x (PI / 2) = sqrt x) by (unfold delta; rewrite sin_PI2; replace (1 - (1 - x) * 1 ^ 2) with x by ring; reflexivity). assert (D0 : delta x 0 = 1) by (unfold delta; rewrite sin_0; replace (1 - (1 - x) * 0 ^ 2) with 1 by ring; apply sqrt_1). rewrite D1, D0, cos_PI2, cos_0.
    replace (s * 0 + sqrt x) with (sqrt x) by ring. replace (s * 1 + 1) with (1 + s) by ring.
    assert (L : ln (sqrt x) = ln x / 2). { rewrite <- (sqrt_sqrt x) at 2 by lra. pose proof (sqrt_lt_R0 x ltac:(lra)). rewrite ln_mult by assumption. lra. }
    rewrite L. field. lra.
Qed.
Lemma ln_two_integral : RInt (fun t => cos t * / (1 + sin t)) 0 (PI / 2) = ln 2.
Proof.
  pose proof PI_RGT_0 as HPI. apply is_RInt_unique. assert (P : forall t, 0 <= t <= PI / 2 -> 0 < 1 + sin t) by (intros t Ht; assert (0 <= sin t) by (apply sin_ge_0; lra); lra).
  replace (ln 2) with (minus (ln (1 + sin (PI / 2))) (ln (1 + sin 0))).
  - apply (is_RInt_derive (V := R_CompleteNormedModule) (fun t => ln (1 + sin t)) (fun t => cos t * / (1 + sin t))).
    + intros t Ht. rewrite Rmin_left, Rmax_right in Ht by lra. specialize (P t Ht). auto_derive; [exact P|]. req. field. lra.
    + intros t Ht. rewrite Rmin_left, Rmax_right in Ht by lra. specialize (P t Ht). apply (ex_derive_continuous (V := R_NormedModule)). auto_derive. lra.
  - rewrite sin_PI2, sin_0. unfold minus, plus, opp. cbn. rewrite Rplus_0_r, ln_1. replace (1 + 1) with 2 by ring. ring.
Qed.
Lemma second_part x : 0 < x < 1 -> ln 2 - PI / 2 * sqrt x <= RInt (fun t => (1 - sin t) * / delta x t) 0 (PI / 2) <= ln 2.
Proof.
  intros H. pose proof PI_RGT_0 as HPI. set (r := sqrt x). assert (X : 0 < r) by (apply sqrt_lt_R0; lra).
  assert (P : forall t, 0 <= t <= PI / 2 -> 0 < 1 + sin t) by (intros t Ht; assert (0 <= sin t) by (apply sin_ge_0; lra); lra).
  assert (Ex : ex_RInt (fun t => cos t * / (1 + sin t)) 0 (PI / 2)).
  { apply (ex_RInt_continuous (V := R_CompleteNormedModule)). intros t Ht. rewrite Rmin_left, Rmax_right in Ht by lra. specialize (P t Ht). apply (ex_derive_continuous (V := R_NormedModule)). auto_derive. lra. }
  assert (Er : ex_RInt (fun t => (1 - sin t) * / delta x t) 0 (PI / 2)) by (apply cont_ex_RInt; intros t; apply rest_continuous; lra).
  assert (Id : forall t, 0 < t < PI / 2 -> cos t * / (1 + sin t) - r <= (1 - sin t) * / delta x t <= cos t * / (1 + sin t)).
  { intros t Ht. destruct (quarter t Ht) as [S C]. pose proof (delta_bounds x t ltac:(lra) Ht) as B. fold r in B. pose proof (sin2_cos2 t) as E. unfold Rsqr in E. set (d := delta x t) in *. clearbody d. set (c := cos t) in *. set (s := sin t) in *. clearbody c s.
    assert (Q : (1 - s) * / d = c * c / d * / (1 + s)) by (replace (c * c) with ((1 - s) * (1 + s)) by lra; field; lra). rewrite Q.
    assert (I : 0 < / (1 + s) <= 1) by (split; [apply Rinv_0_lt_compat; lra|]; rewrite <- Rinv_1; apply Rinv_le_contravar; lra). set (i := / (1 + s)) in *. clearbody i.
    assert (U : c * c / d <= c) by (apply (Rmult_le_reg_r d); [lra|]; unfold Rdiv; rewrite Rmult_assoc, Rinv_l by lra; nra).
    assert (L : c - r <= c * c / d) by (apply (Rmult_le_reg_r d); [lra|]; unfold Rdiv; rewrite Rmult_assoc, Rinv_l by lra; nra). nra. }
  split.
  - assert (E : RInt (fun t => cos t * / (1 + sin t) - r) 0 (PI / 2) = ln 2 - PI / 2 * r).
    { rewrite <- ln_two_integral. apply is_RInt_unique. replace (PI / 2 * r) with (scal (PI / 2 - 0) r) by (unfold scal; cbn; unfold mult; cbn; ring).
      apply (is_RInt_minus (V := R_NormedModule) (fun t => cos t * / (1 + sin t)) (fun _ => r)); [apply (RInt_correct (V := R_CompleteNormedModule)), Ex|apply (is_RInt_const (V := R_NormedModule))]. }
    rewrite <- E. apply RInt_le; [lra| |exact Er|intros t Ht; apply Id, Ht]. apply (ex_RInt_minus (V := R_NormedModule)); [exact Ex|apply ex_RInt_const].
  - rewrite <- ln_two_integral. apply RInt_le; [lra|exact Er|exact Ex|intros t Ht; apply Id, Ht].
Qed.
Lemma K_leading x : 0 < x <= 1 / 2 -> Rabs (elliptic_K (1 - x) - (2 * ln 2 - ln x / 2)) <= 3 * x - x * ln x + PI / 2 * sqrt x.
Proof.
  intros H. assert (E : elliptic_K (1 - x) = RInt (fun t => sin t * / delta x t) 0 (PI / 2) + RInt (fun t => (1 - sin t) * / delta x t) 0 (PI / 2)).
  { unfold elliptic_K. rewrite <- (Rmult_1_l (RInt (fun t => sin t * _) _ _)), <- (Rmult_1_l (RInt (fun t => (1 - sin t) * _) _ _)).
    rewrite <- RInt_lin by (intros t; first [apply sin_over_continuous; lra|apply rest_continuous; lra]). apply RInt_eq. intros t. unfold delta. ring. }
  rewrite E, first_part by lra. pose proof (second_part x ltac:(lra)) as B. set (I := RInt _ _ _) in *. change R in (type of I). clearbody I. clear E.
  set (r := PI / 2 * sqrt x) in *. clearbody r. set (s := sqrt (1 - x)). assert (S : 1 / 2 <= s). { unfold s. replace (1 / 2) with (sqrt (1 / 2 * (1 / 2))) by (rewrite sqrt_square; lra). apply sqrt_le_1_alt. lra. }
  assert (SS : s * s = 1 - x) by (apply sqrt_sqrt; lra). assert (S1 : s <= 1) by nra. clearbody s.
  assert (L2 : ln 2 <= 1) by (rewrite <- (ln_exp 1); apply ln_le; [lra|]; pose proof (exp_ineq1_le 1); lra).
  assert (Ls : 0 <= ln 2 - ln (1 + s) <= x).
  { split; [apply Rle_minus_r; rewrite Rplus_0_l; apply ln_le; lra|]. rewrite <- ln_div by lra. apply Rle_trans with (2 / (1 + s) - 1).
    - pose proof (exp_ineq1_le (ln (2 / (1 + s)))) as Q. rewrite exp_ln in Q by (apply Rdiv_lt_0_compat; lra). lra.
    - replace (2 / (1 + s) - 1) with (x / ((1 + s) * (1 + s))) by (replace x with (1 - s * s) by lra; field; lra). apply Rle_trans with (x / 1); [|lra]. apply Rmult_le_compat_l; [lra|]. apply Rinv_le_contravar; nra. }
  assert (Lx : ln x <= 0) by (rewrite <- ln_1; apply ln_le; lra).
  assert (Is : 0 <= / s - 1 <= 2 * x). { replace (/ s - 1) with (x * / (s * (1 + s))) by (replace x with (1 - s * s) by lra; field; lra). assert (0 < / (s * (1 + s)) <= 2). { split; [apply Rinv_0_lt_compat; nra|]. replace 2 with (/ (1 / 2)) by field. apply Rinv_le_contravar; nra. } nra. }
  assert (L0 : 0 <= ln (1 + s)) by (rewrite <- ln_1; apply ln_le; lra).
  set (l := ln (1 + s)) in *. set (i := / s) in *. unfold Rdiv. fold i. set (y := ln x) in *. set (w := ln 2) in *. clearbody l i y w. clear SS.
  replace ((l - y * / 2) * i + I - (2 * w - y * / 2)) with ((i - 1) * (l - y / 2) - (w - l) - (w - I)) by field.
  assert (0 <= (i - 1) * (l - y / 2) <= 2 * x * (1 - y / 2)). { split; [apply Rmult_le_pos; lra|]. apply Rmult_le_compat; lra. }
  apply Rabs_le. split; nra.
Qed.
Lemma E_leading x : 0 < x < 1 -> 1 <= elliptic_E (1 - x) <= 1 + PI / 2 * sqrt x.
Proof.
  intros H. pose proof PI_RGT_0 as HPI. set (r := sqrt x). assert (X : 0 < r) by (apply sqrt_lt_R0; lra).
  assert (C : is_RInt cos 0 (PI / 2) (1 : R)).
  { replace (1 : R) with (minus (sin (PI / 2)) (sin 0)) by (rewrite sin_PI2, sin_0; unfold minus, plus, opp; cbn; ring).
    apply (is_RInt_derive (V := R_CompleteNormedModule) sin cos); intros t _; [apply is_derive_sin|apply (ex_derive_continuous (V := R_NormedModule)); auto_derive; exact I]. }
  assert (Ee : ex_RInt (delta x) 0 (PI / 2)) by (apply cont_ex_RInt; intros t; apply delta_continuous; lra).
  change (elliptic_E (1 - x)) with (RInt (delta x) 0 (PI / 2)). split.
  - rewrite <- (is_RInt_unique _ _ _ _ C). apply RInt_le; [lra|eexists; exact C|exact Ee|]. intros t Ht. apply (delta_bounds x t); lra.
  - assert (C2 : is_RInt (fun t => cos t + r) 0 (PI / 2) (1 + PI / 2 * r)).
    { replace (PI / 2 * r) with (scal (PI / 2 - 0) r) by (unfold scal; cbn; unfold mult; cbn; ring). apply (is_RInt_plus (V := R_NormedModule)); [exact C|apply (is_RInt_const (V := R_NormedModule))]. }
    rewrite <- (is_RInt_unique _ _ _ _ C2). apply RInt_le; [lra|exact Ee|eexists; exact C2|]. intros t Ht. apply (delta_bounds x t); lra.
Qed.
