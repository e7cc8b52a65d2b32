(** The complete elliptic integrals as power series with a logarithm around the parameter one. *)
From Coq Require Import Reals Lra Lia Psatz.
From Coquelicot Require Import Coquelicot.
From Verif Require Import SeriesFacts EllipticSpec EllipticFacts EllipticSeries EllipticExpand EllipticLog.
Local Open Scope R_scope.

Section One.
Let P := PSeries pc. Let U := PSeries uc. Let Q := PSeries qc. Let V := PSeries vc.
(** the candidates *)
Let wk (x : R) : R := (4 * ln 2 - ln x) * P x + Q x.
Let we (x : R) : R := (4 * ln 2 - ln x) * U x + V x.
Let k (x : R) : R := elliptic_K (1 - x).
Let e (x : R) : R := elliptic_E (1 - x).

Lemma comp_one_minus (f : R -> R) x l : is_derive f (1 - x) l -> is_derive (fun x => f (1 - x)) x (- l).
Proof.
  intros D. eapply is_derive_eq; [apply (is_derive_comp f (fun x => 1 - x) x l (-1)); [exact D|]|unfold scal; cbn; unfold mult; cbn; ring].
  eapply is_derive_eq; [apply (is_derive_minus_R (fun _ => 1) (fun x => x) x 0 1); [apply (is_derive_const (V := R_NormedModule))|apply (is_derive_id (K := R_AbsRing))]|ring].
Qed.
Lemma k_derive x : 0 < x < 1 -> is_derive k x ((x * k x - e x) / (2 * x * (1 - x))).
Proof. intros H. unfold k, e. eapply is_derive_eq; [apply comp_one_minus, K_derive_formula; lra|]. req. replace (1 - (1 - x)) with x by ring. field. lra. Qed.
Lemma e_derive' x : 0 < x < 1 -> is_derive e x ((k x - e x) / (2 * (1 - x))).
Proof. intros H. unfold k, e. eapply is_derive_eq; [apply comp_one_minus, E_derive_formula; lra|]. req. field. lra. Qed.
Lemma ln_derive x : 0 < x -> is_derive (fun x => 4 * ln 2 - ln x) x (- / x).
Proof. intros H. auto_derive; [exact H|]. req. field. lra. Qed.
Lemma wk_derive x : 0 < x < 1 -> is_derive wk x ((x * wk x - we x) / (2 * x * (1 - x))).
Proof.
  intros H. assert (A : Rabs x < 1) by (rewrite Rabs_pos_eq; lra). unfold wk at 1. eapply is_derive_eq.
  - apply is_derive_plus_R; [apply is_derive_mult_R; [apply ln_derive; lra|apply ps_is_derive; [apply pc_bounded|exact A]]|apply ps_is_derive; [apply qc_bounded|exact A]].
  - pose proof (P_ode x A) as O1. pose proof (Q_ode x A) as O2. unfold wk, we. fold (P x) (U x) (Q x) (V x) in *. set (L := 4 * ln 2 - ln x). clearbody L. req.
    assert (E1 : PS' pc x = (x * P x - U x) / (2 * x * (1 - x))) by (rewrite <- O1; field; lra).
    assert (E2 : PS' qc x = (x * Q x - V x + 2 * (1 - x) * P x) / (2 * x * (1 - x))) by (rewrite <- O2; field; lra).
    rewrite E1, E2. field. lra.
Qed.
Lemma we_derive x : 0 < x < 1 -> is_derive we x ((wk x - we x) / (2 * (1 - x))).
Proof.
  intros H. assert (A : Rabs x < 1) by (rewrite Rabs_pos_eq; lra). unfold we at 1. eapply is_derive_eq.
  - apply is_derive_plus_R; [apply is_derive_mult_R; [apply ln_derive; lra|apply ps_is_derive; [apply uc_bounded|exact A]]|apply ps_is_derive; [apply vc_bounded|exact A]].
  - pose proof (U_ode x A) as O1. pose proof (V_ode x A) as O2. unfold wk, we. fold (P x) (U x) (Q x) (V x) in *. set (L := 4 * ln 2 - ln x). clearbody L. req.
    assert (E1 : PS' uc x = (P x - U x) / (2 * (1 - x))) by (apply (Rmult_eq_reg_l (2 * (1 - x) * x)); [|nra]; transitivity (2 * (1 - x) * (x * PS' uc x)); [ring|rewrite O1; field; lra]).
    assert (E2 : PS' vc x = (x * (Q x - V x) + 2 * (1 - x) * U x) / (2 * x * (1 - x))) by (rewrite <- O2; field; lra).
    rewrite E1, E2. field. lra.
Qed.
Lemma k_pos x : 0 < x < 1 -> 1 <= k x.
Proof.
  intros H. unfold k. rewrite K_series by lra. pose proof (s_pos (1 - x) ltac:(lra)) as S. pose proof PI2_1. nra.
Qed.
(** near zero *)
Lemma ps_near a M x : (forall n, Rabs (a n) <= M) -> 0 <= x <= 1 / 2 -> Rabs (PSeries a x - a 0%nat) <= 2 * M * x.
Proof.
  intros B H. pose proof (ps_tail a M x 1 B ltac:(lra)) as T. cbn [partial] in T. replace (PSeries a x - a 0%nat) with (PSeries a x - (0 + a 0%nat * x ^ 0)) by ring. eapply Rle_trans; [exact T|].
  assert (HM : 0 <= M) by (eapply Rle_trans; [apply Rabs_pos|apply (B 0%nat)]). rewrite pow_1. apply (Rmult_le_reg_r (1 - x)); [lra|]. unfold Rdiv. rewrite Rmult_assoc, Rinv_l by lra. assert (0 <= M * x) by (apply Rmult_le_pos; lra). nra.
Qed.
(** x = t^4 makes everything comparable with powers of t *)
Lemma ln_root t : 0 < t < 1 -> 0 <= - ln (t ^ 4) <= 4 / t.
Proof.
  intros H. replace (t ^ 4) with (t * t * (t * t)) by ring. rewrite !ln_mult by nra. assert (ln t <= 0) by (rewrite <- ln_1; apply ln_le; lra). split; [lra|].
  assert (- ln t <= / t). { rewrite <- ln_Rinv by lra. assert (0 < / t) by (apply Rinv_0_lt_compat; lra). pose proof (exp_ineq1_le (ln (/ t))) as Q0. rewrite exp_ln in Q0 by assumption. lra. }
  unfold Rdiv. lra.
Qed.
Lemma pi_4 : PI / 2 <= 2. Proof. pose proof PI_4. lra. Qed.
Lemma ln2_1 : 0 <= ln 2 <= 1.
Proof. split; [rewrite <- ln_1; apply ln_le; lra|]. rewrite <- (ln_exp 1). apply ln_le; [lra|]. pose proof (exp_ineq1_le 1). lra. Qed.
Lemma sqrt_root t : 0 < t -> sqrt (t ^ 4) = t ^ 2.
Proof. intros H. replace (t ^ 4) with (t ^ 2 * t ^ 2) by ring. apply sqrt_square. nra. Qed.
Lemma fourth t : 0 < t < 1 / 2 -> 0 < t ^ 4 <= 1 / 2 /\ t ^ 4 * (4 / t) = 4 * t ^ 3 /\ t ^ 4 <= t ^ 3 /\ t ^ 3 <= t ^ 2 /\ 0 < t ^ 3.
Proof.
  intros H. assert (0 < t ^ 2) by nra. assert (0 < t ^ 3 <= t ^ 2 * (1 / 2)) by (cbn in *; nra). assert (0 < t ^ 4 <= t ^ 3 * (1 / 2)) by (cbn in *; nra). assert (t ^ 2 <= 1) by nra.
  split; [lra|]. split; [field; lra|]. split; [lra|]. split; lra.
Qed.
Lemma k_near t : 0 < t < 1 / 2 -> Rabs (k (t ^ 4) - wk (t ^ 4)) <= 40 * t ^ 2.
Proof.
  intros H. destruct (fourth t H) as (F1 & F2 & F3 & F4 & F5). pose proof (ln_root t ltac:(lra)) as L. pose proof (K_leading (t ^ 4) F1) as K. rewrite (sqrt_root t) in K by lra.
  pose proof (ps_near pc _ (t ^ 4) pc_abs ltac:(lra)) as Hp. pose proof (ps_near qc _ (t ^ 4) qc_abs ltac:(lra)) as Hq. fold (P (t ^ 4)) in Hp. fold (Q (t ^ 4)) in Hq. fold (k (t ^ 4)) in K. unfold wk. set (x := t ^ 4) in *. pose proof pi_4. pose proof ln2_1.
  replace (qc 0) with 0 in Hq by (unfold qc; cbn; ring). replace (pc 0) with (1 / 2) in Hp by reflexivity.
  set (l := ln x) in *. set (w := ln 2) in *. set (p := P x) in *. set (q := Q x) in *. set (kk := k x) in *.
  replace (kk - ((4 * w - l) * p + q)) with ((kk - (2 * w - l / 2)) - (4 * w - l) * (p - 1 / 2) - (q - 0)) by field.
  assert (X1 : x * - l <= 4 * t ^ 3) by (rewrite <- F2; apply Rmult_le_compat_l; lra). assert (T2 : 0 < t ^ 2) by nra. assert (PT : PI / 2 * t ^ 2 <= 2 * t ^ 2) by nra.
  assert (Y : Rabs ((4 * w - l) * (p - 1 / 2)) <= 4 * x + x * - l).
  { rewrite Rabs_mult, (Rabs_pos_eq (4 * w - l)) by lra. apply Rle_trans with ((4 * w - l) * (2 * (1 / 2) * x)); [apply Rmult_le_compat_l; lra|]. nra. }
  eapply Rle_trans; [eapply Rle_trans; [apply Rabs_triang|apply Rplus_le_compat_r, Rabs_triang]|]. rewrite !Rabs_Ropp. lra.
Qed.
Lemma e_near t : 0 < t < 1 / 2 -> Rabs (e (t ^ 4) - we (t ^ 4)) <= 40 * t ^ 2 /\ Rabs (we (t ^ 4)) <= 20.
Proof.
  intros H. destruct (fourth t H) as (F1 & F2 & F3 & F4 & F5). pose proof (ln_root t ltac:(lra)) as L. pose proof (E_leading (t ^ 4) ltac:(lra)) as K. rewrite (sqrt_root t) in K by lra.
  pose proof (ps_near uc _ (t ^ 4) uc_abs ltac:(lra)) as Hp. pose proof (ps_near vc _ (t ^ 4) vc_abs ltac:(lra)) as Hq. fold (U (t ^ 4)) in Hp. fold (V (t ^ 4)) in Hq. fold (e (t ^ 4)) in K. unfold we. set (x := t ^ 4) in *. pose proof pi_4. pose proof ln2_1.
  replace (vc 0) with 1 in Hq by reflexivity. replace (uc 0) with 0 in Hp by reflexivity.
  set (l := ln x) in *. set (w := ln 2) in *. set (p := U x) in *. set (q := V x) in *. set (kk := e x) in *.
  assert (X1 : x * - l <= 4 * t ^ 3) by (rewrite <- F2; apply Rmult_le_compat_l; lra). assert (T2 : 0 < t ^ 2) by nra. assert (PT : PI / 2 * t ^ 2 <= 2 * t ^ 2) by nra.
  assert (Y : Rabs ((4 * w - l) * (p - 0)) <= 4 * x + x * - l).
  { rewrite Rabs_mult, (Rabs_pos_eq (4 * w - l)) by lra. apply Rle_trans with ((4 * w - l) * (2 * (1 / 2) * x)); [apply Rmult_le_compat_l; lra|]. nra. }
  assert (TT : t ^ 2 <= 1 / 4) by nra. assert (Kk : Rabs (kk - 1) <= 2 * t ^ 2) by (apply Rabs_le; lra). split.
  - replace (kk - ((4 * w - l) * p + q)) with ((kk - 1) - (4 * w - l) * (p - 0) - (q - 1)) by ring.
    eapply Rle_trans; [eapply Rle_trans; [apply Rabs_triang|apply Rplus_le_compat_r, Rabs_triang]|]. rewrite !Rabs_Ropp. lra.
  - replace ((4 * w - l) * p + q) with ((4 * w - l) * (p - 0) + (q - 1) + 1) by ring.
    eapply Rle_trans; [eapply Rle_trans; [apply Rabs_triang|apply Rplus_le_compat_r, Rabs_triang]|]. rewrite Rabs_R1. lra.
Qed.
Lemma k_size t : 0 < t < 1 / 2 -> Rabs (wk (t ^ 4)) <= 60 / t.
Proof.
  intros H. destruct (fourth t H) as (F1 & F2 & F3 & F4 & F5). pose proof (ln_root t ltac:(lra)) as L.
  pose proof (ps_near pc _ (t ^ 4) pc_abs ltac:(lra)) as Hp. pose proof (ps_near qc _ (t ^ 4) qc_abs ltac:(lra)) as Hq. fold (P (t ^ 4)) in Hp. fold (Q (t ^ 4)) in Hq. unfold wk. set (x := t ^ 4) in *. pose proof ln2_1.
  replace (qc 0) with 0 in Hq by (unfold qc; cbn; ring). replace (pc 0) with (1 / 2) in Hp by reflexivity.
  assert (I : 2 <= / t) by (replace 2 with (/ (1 / 2)) by field; apply Rinv_le_contravar; lra). unfold Rdiv in *.
  set (l := ln x) in *. set (w := ln 2) in *. set (p := P x) in *. set (q := Q x) in *. set (i := / t) in *.
  assert (Ap : Rabs p <= 1). { replace p with ((p - 1 * / 2) + 1 * / 2) by ring. eapply Rle_trans; [apply Rabs_triang|]. rewrite (Rabs_pos_eq (1 * / 2)) by lra. lra. }
  assert (Aq : Rabs q <= 2) by (replace q with (q - 0) by ring; lra).
  eapply Rle_trans; [apply Rabs_triang|]. rewrite Rabs_mult, (Rabs_pos_eq (4 * w - l)) by lra. assert ((4 * w - l) * Rabs p <= (4 * w - l) * 1) by (apply Rmult_le_compat_l; lra). lra.
Qed.
Lemma vanishes z C : (forall t, 0 < t < 1 / 2 -> Rabs z <= C * t) -> z = 0.
Proof.
  intros H. destruct (Req_dec z 0) as [E|N]; [exact E|exfalso]. assert (Pz : 0 < Rabs z) by (apply Rabs_pos_lt, N).
  assert (HC : 0 < C) by (specialize (H (1 / 4) ltac:(lra)); lra). set (t := Rmin (1 / 4) (Rabs z / (2 * C))).
  assert (T : 0 < t) by (apply Rmin_glb_lt; [lra|apply Rdiv_lt_0_compat; lra]). pose proof (Rmin_l (1 / 4) (Rabs z / (2 * C))) as T1. pose proof (Rmin_r (1 / 4) (Rabs z / (2 * C))) as T2. fold t in T1, T2.
  specialize (H t ltac:(lra)). assert (C * t <= C * (Rabs z / (2 * C))) by (apply Rmult_le_compat_l; lra). replace (C * (Rabs z / (2 * C))) with (Rabs z / 2) in H0 by (field; lra). lra.
Qed.
Lemma root_between x : 0 < x < 1 -> forall t, 0 < t < 1 / 2 -> exists t', 0 < t' <= t /\ t' < 1 / 2 /\ t' ^ 4 <= x.
Proof.
  intros Hx t Ht. exists (Rmin t x). assert (M : 0 < Rmin t x) by (apply Rmin_glb_lt; lra). pose proof (Rmin_l t x). pose proof (Rmin_r t x). set (m := Rmin t x) in *. split; [lra|]. split; [lra|].
  assert (m ^ 2 <= m) by nra. assert (0 <= m ^ 2) by nra. replace (m ^ 4) with (m ^ 2 * m ^ 2) by ring. nra.
Qed.
Let W (x : R) : R := k x * we x - e x * wk x.
Lemma W_zero x : 0 < x < 1 -> W x = 0.
Proof.
  intros Hx. apply (vanishes _ 3200). intros t Ht. destruct (root_between x Hx t Ht) as (t' & T1 & T2 & T3). set (y := t' ^ 4) in *. assert (Y : 0 < y) by (apply pow_lt; lra).
  assert (D : forall z, 0 < z < 1 -> is_derive W z 0).
  { intros z Hz. unfold W. eapply is_derive_eq; [apply is_derive_minus_R; apply is_derive_mult_R; [apply k_derive|apply we_derive|apply e_derive'|apply wk_derive]; exact Hz|].
    set (a := k z). set (b := e z). set (c := wk z). set (d := we z). clearbody a b c d. req. field. lra. }
  assert (E : W x = W y). { apply (derive_zero W y x T3); intros z Hz; [apply D; lra|eapply derivable_continuity, D; lra]. }
  rewrite E. pose proof (k_near t' ltac:(lra)) as Hk. destruct (e_near t' ltac:(lra)) as [He Hw]. pose proof (k_size t' ltac:(lra)) as Hs. fold y in Hk, He, Hw, Hs. unfold W.
  set (a := k y) in *. set (b := e y) in *. set (c := wk y) in *. set (d := we y) in *. clearbody a b c d. replace (a * d - b * c) with ((a - c) * d - (b - d) * c) by ring.
  eapply Rle_trans; [apply Rabs_triang|]. rewrite Rabs_Ropp, !Rabs_mult.
  assert (A1 : Rabs (a - c) * Rabs d <= 40 * t' ^ 2 * 20) by (apply Rmult_le_compat; try apply Rabs_pos; assumption).
  assert (A2 : Rabs (b - d) * Rabs c <= 40 * t' ^ 2 * (60 / t')) by (apply Rmult_le_compat; try apply Rabs_pos; assumption).
  replace (40 * t' ^ 2 * (60 / t')) with (2400 * t') in A2 by (field; lra). assert (t' ^ 2 <= t') by nra. lra.
Qed.
Theorem K_log_series x : 0 < x < 1 -> elliptic_K (1 - x) = (4 * ln 2 - ln x) * PSeries pc x + PSeries qc x.
Proof.
  intros Hx. fold (k x) (P x) (Q x) (wk x). cut (1 - wk x / k x = 0).
  { intros E. pose proof (k_pos x Hx). apply (Rmult_eq_reg_r (/ k x)); [|apply Rinv_neq_0_compat; lra]. rewrite Rinv_r by lra. unfold Rdiv in E. lra. }
  apply (vanishes _ 40). intros t Ht. destruct (root_between x Hx t Ht) as (t' & T1 & T2 & T3). set (y := t' ^ 4) in *. assert (Y : 0 < y) by (apply pow_lt; lra).
  assert (D : forall z, 0 < z < 1 -> is_derive (fun z => wk z / k z) z 0).
  { intros z Hz. pose proof (k_pos z Hz) as Pk. pose proof (W_zero z Hz) as E. unfold W in E. eapply is_derive_eq; [apply is_derive_div; [apply wk_derive, Hz|apply k_derive, Hz|lra]|].
    set (a := k z) in *. set (b := e z) in *. set (c := wk z) in *. set (d := we z) in *. clearbody a b c d. req.
    replace (((z * c - d) / (2 * z * (1 - z)) * a - c * ((z * a - b) / (2 * z * (1 - z)))) / a ^ 2) with (- (a * d - b * c) / (2 * z * (1 - z) * a ^ 2)) by (field; lra). rewrite E. unfold Rdiv. ring. }
  assert (E : wk x / k x = wk y / k y). { apply (derive_zero (fun z => wk z / k z) y x T3); intros z Hz; [apply D; lra|eapply derivable_continuity, D; lra]. }
  rewrite E. pose proof (k_near t' ltac:(lra)) as Hk. fold y in Hk. pose proof (k_pos y ltac:(lra)) as Pk. replace (1 - wk y / k y) with ((k y - wk y) * / k y) by (field; lra).
  rewrite Rabs_mult. assert (I : 0 < / k y <= 1) by (split; [apply Rinv_0_lt_compat; lra|]; rewrite <- Rinv_1; apply Rinv_le_contravar; lra). rewrite (Rabs_pos_eq (/ k y)) by lra.
  assert (A : 0 <= Rabs (k y - wk y)) by apply Rabs_pos. assert (t' ^ 2 <= t') by nra. nra.
Qed.
Theorem E_log_series x : 0 < x < 1 -> elliptic_E (1 - x) = (4 * ln 2 - ln x) * PSeries uc x + PSeries vc x.
Proof.
  intros Hx. fold (e x) (U x) (V x) (we x). pose proof (W_zero x Hx) as E. unfold W in E. pose proof (k_pos x Hx) as Pk. pose proof (K_log_series x Hx) as K. fold (k x) (P x) (Q x) (wk x) in K. rewrite <- K in E.
  apply (Rmult_eq_reg_r (k x)); [lra|lra].
Qed.
End One.
