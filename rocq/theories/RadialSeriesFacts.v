(** The radial series expansion of a charged ring (used by C80 and C81). *)
From Coq Require Import Reals ZArith Lra Lia Psatz.
From Coquelicot Require Import Coquelicot.
From Verif Require Import Base BaseFacts Vec GeomModel OutwardFacts FieldModel FieldFacts SeriesModel SeriesFacts InterpFacts LegendreFacts.
Local Open Scope R_scope.

(** ** Truncating the expansion of 1/sqrt(D^2 - 2 y t + t^2) in powers of t, |y| <= D *)
(** coefficient n of the expansion: P_n(y/D) / D^(n+1) *)
Definition coef (D y : R) (n : nat) : R := leg n (y / D) (sqrt (1 - (y / D) ^ 2)) / D ^ S n.
Lemma cos_sin_unit x : Rabs x <= 1 -> x ^ 2 + sqrt (1 - x ^ 2) ^ 2 = 1.
Proof. intros H. apply Rabs_le_between in H. rewrite <- (Rsqr_pow2 (sqrt _)), Rsqr_sqrt by nra. ring. Qed.
Lemma ratio_bound D y : 0 < D -> Rabs y <= D -> Rabs (y / D) <= 1.
Proof. intros H Hy. unfold Rdiv. rewrite Rabs_mult, (Rabs_pos_eq (/ D)) by (apply Rlt_le, Rinv_0_lt_compat; exact H). apply (Rmult_le_reg_r D); [exact H|]. rewrite Rmult_assoc, Rinv_l by lra. lra. Qed.
Lemma coef_bound D y n : 0 < D -> Rabs y <= D -> Rabs (coef D y n) <= / D ^ S n.
Proof.
  intros HD Hy. unfold coef, Rdiv. assert (P : 0 < / D ^ S n) by (apply Rinv_0_lt_compat, pow_lt; exact HD).
  rewrite Rabs_mult, (Rabs_pos_eq (/ D ^ S n)) by lra. pose proof (leg_bound n (y / D) (sqrt (1 - (y / D) ^ 2)) (cos_sin_unit _ (ratio_bound D y HD Hy))). fold (y / D) in *. nra.
Qed.
Lemma coef_0 D y : coef D y 0 = / D.
Proof. unfold coef, leg. cbn. unfold Rdiv. rewrite Rmult_1_r, Rmult_1_l. reflexivity. Qed.
Lemma coef_1 D y : D <> 0 -> coef D y 1 = y / D ^ 3.
Proof. intros H. unfold coef. rewrite leg_S. unfold leg, legw. cbn [legendre fst snd]. cbn [INR]. field. exact H. Qed.
Lemma coef_rec D y n : 0 < D -> Rabs y <= D -> D ^ 2 * INR (S (S n)) * coef D y (S (S n)) = (2 * INR (S n) + 1) * y * coef D y (S n) - INR (S n) * coef D y n.
Proof.
  intros HD Hy. pose proof (leg_rec n (y / D) (sqrt (1 - (y / D) ^ 2)) (cos_sin_unit _ (ratio_bound D y HD Hy))) as L. unfold coef.
  replace (D ^ 2 * INR (S (S n)) * (leg (S (S n)) (y / D) (sqrt (1 - (y / D) ^ 2)) / D ^ S (S (S n)))) with ((INR (S (S n)) * leg (S (S n)) (y / D) (sqrt (1 - (y / D) ^ 2))) / D ^ S n)
    by (cbn [pow]; field; split; [apply pow_nonzero|]; lra).
  rewrite L. cbn [pow]. field. split; [apply pow_nonzero|]; lra.
Qed.
(** the truncated expansion and its derivative *)
Fixpoint expansion (c : nat -> R) (N : nat) (t : R) : R := match N with 0%nat => 0 | S n => expansion c n t + c n * t ^ n end.
Fixpoint expansion' (c : nat -> R) (N : nat) (t : R) : R := match N with 0%nat => 0 | S n => expansion' c n t + c n * (INR n * t ^ pred n) end.
Lemma expansion_derive c N (t : R) : is_derive (expansion c N) t (expansion' c N t).
Proof.
  induction N as [|n IH]; [apply (is_derive_const (V := R_NormedModule))|].
  apply (is_derive_plus (expansion c n) (fun t => c n * t ^ n)); [exact IH|]. apply (is_derive_scal (fun t => t ^ n) t (c n)).
  eapply is_derive_eq; [apply (is_derive_pow (fun t => t) n t 1); apply (@is_derive_id R_AbsRing)|]. ring.
Qed.
Definition len2 (D y t : R) : R := D ^ 2 - 2 * y * t + t ^ 2.
Lemma expansion_residual D y N (t : R) : 0 < D -> Rabs y <= D ->
  len2 D y t * expansion' (coef D y) (S N) t - (y - t) * expansion (coef D y) (S N) t = INR (S N) * t ^ N * (coef D y N * t - D ^ 2 * coef D y (S N)).
Proof.
  intros HD Hy. induction N as [|n IH].
  - cbn [expansion expansion' INR pow pred]. rewrite coef_0, coef_1 by lra. unfold len2. field. lra.
  - change (expansion' (coef D y) (S (S n)) t) with (expansion' (coef D y) (S n) t + coef D y (S n) * (INR (S n) * t ^ n)).
    change (expansion (coef D y) (S (S n)) t) with (expansion (coef D y) (S n) t + coef D y (S n) * t ^ S n).
    pose proof (coef_rec D y n HD Hy) as E. rewrite (S_INR (S n)) in E |- *.
    transitivity ((len2 D y t * expansion' (coef D y) (S n) t - (y - t) * expansion (coef D y) (S n) t) + coef D y (S n) * t ^ n * (INR (S n) * len2 D y t - (y - t) * t)); [cbn [pow]; ring|].
    rewrite IH. unfold len2.
    transitivity ((INR (S n) + 1) * coef D y (S n) * t ^ n * t ^ 2 - t ^ n * t * ((2 * INR (S n) + 1) * y * coef D y (S n) - INR (S n) * coef D y n)); [cbn [pow]; ring|].
    rewrite <- E. cbn [pow]. ring.
Qed.
Lemma len2_lower D y t : 0 < D -> Rabs y <= D -> 0 <= t -> (D - t) ^ 2 <= len2 D y t.
Proof. intros HD Hy Ht. apply Rabs_le_between in Hy. unfold len2. nra. Qed.
Lemma len2_pos D y t : 0 < D -> Rabs y <= D -> 0 <= t < D -> 0 < len2 D y t.
Proof. intros HD Hy Ht. pose proof (len2_lower D y t HD Hy (proj1 Ht)). assert (0 < (D - t) ^ 2) by (apply pow_lt; lra). lra. Qed.
Lemma len_lower D y t : 0 < D -> Rabs y <= D -> 0 <= t < D -> D - t <= sqrt (len2 D y t).
Proof. intros HD Hy Ht. rewrite <- (sqrt_Rsqr (D - t)) by lra. apply sqrt_le_1_alt. rewrite Rsqr_pow2. apply len2_lower; lra. Qed.
Lemma residual_bound D y N t : 0 < D -> Rabs y <= D -> 0 <= t -> Rabs (INR (S N) * t ^ N * (coef D y N * t - D ^ 2 * coef D y (S N))) <= INR (S N) * t ^ N * ((t + D) / D ^ S N).
Proof.
  intros HD Hy Ht. rewrite Rabs_mult, (Rabs_pos_eq (INR (S N) * t ^ N)) by (apply Rmult_le_pos; [apply pos_INR|apply pow_le; exact Ht]).
  apply Rmult_le_compat_l; [apply Rmult_le_pos; [apply pos_INR|apply pow_le; exact Ht]|].
  unfold Rminus. eapply Rle_trans; [apply Rabs_triang|]. rewrite Rabs_Ropp, !Rabs_mult, (Rabs_pos_eq t), (Rabs_pos_eq (D ^ 2)) by (try apply pow_le; lra).
  pose proof (coef_bound D y N HD Hy) as B1. pose proof (coef_bound D y (S N) HD Hy) as B2.
  apply Rle_trans with (/ D ^ S N * t + D ^ 2 * / D ^ S (S N)).
  - apply Rplus_le_compat; [apply Rmult_le_compat_r; assumption|apply Rmult_le_compat_l; [apply pow_le; lra|exact B2]].
  - right. cbn [pow]. field. split; [apply pow_nonzero|]; lra.
Qed.
(** a function whose derivative is at most K times that of t^n grows at most like K t^n *)
Lemma growth (f f' : R -> R) (K T : R) n : 0 < T -> (forall t : R, 0 <= t <= T -> is_derive f t (f' t)) -> (forall t, 0 <= t <= T -> Rabs (f' t) <= K * (INR (S n) * t ^ n)) ->
  Rabs (f T - f 0) <= K * T ^ S n.
Proof.
  intros HT Hd Hb.
  assert (P : forall t : R, is_derive (fun t => K * t ^ S n) t (K * (INR (S n) * t ^ n))).
  { intros t. apply (is_derive_scal (fun t => t ^ S n) t K). eapply is_derive_eq; [apply (is_derive_pow (fun t => t) (S n) t 1); apply (@is_derive_id R_AbsRing)|]. cbn [pred]. ring. }
  assert (Mono : forall g g' : R -> R, (forall t : R, 0 <= t <= T -> is_derive g t (g' t)) -> (forall t, 0 <= t <= T -> 0 <= g' t) -> g 0 <= g T).
  { intros g g' Hg Hp. destruct (MVT_cor2 g g' 0 T HT) as (c & E & Hc); [intros c Hc; apply is_derive_Reals; apply Hg; exact Hc|]. pose proof (Hp c ltac:(lra)). nra. }
  assert (U : f T - f 0 <= K * T ^ S n).
  { pose proof (Mono (fun t => K * t ^ S n - f t) (fun t => K * (INR (S n) * t ^ n) - f' t)) as M. cbv beta in M. rewrite (pow_i (S n)) in M by lia.
    assert (K * 0 - f 0 <= K * T ^ S n - f T); [|lra]. apply M.
    - intros t Ht. apply (is_derive_minus (fun t => K * t ^ S n) f); [apply P|apply Hd; exact Ht].
    - intros t Ht. specialize (Hb t Ht). apply Rabs_le_between in Hb. lra. }
  assert (L : - (K * T ^ S n) <= f T - f 0).
  { pose proof (Mono (fun t => K * t ^ S n + f t) (fun t => K * (INR (S n) * t ^ n) + f' t)) as M. cbv beta in M. rewrite (pow_i (S n)) in M by lia.
    assert (K * 0 + f 0 <= K * T ^ S n + f T); [|lra]. apply M.
    - intros t Ht. apply (is_derive_plus (fun t => K * t ^ S n) f); [apply P|apply Hd; exact Ht].
    - intros t Ht. specialize (Hb t Ht). apply Rabs_le_between in Hb. lra. }
  apply Rabs_le. lra.
Qed.
Theorem expansion_error D y N T : 0 < D -> Rabs y <= D -> 0 <= T < D ->
  Rabs (/ sqrt (len2 D y T) - expansion (coef D y) (S N) T) <= (T / D) ^ S N * (D + T) / (D - T) ^ 2.
Proof.
  intros HD Hy HT. set (S_ := expansion (coef D y) (S N)). set (Q := fun t => sqrt (len2 D y t)).
  assert (HQ : forall t, 0 <= t <= T -> 0 < Q t) by (intros t Ht; apply sqrt_lt_R0, len2_pos; lra).
  assert (HQ2 : forall t, 0 <= t <= T -> Q t ^ 2 = len2 D y t) by (intros t Ht; unfold Q; rewrite <- Rsqr_pow2, Rsqr_sqrt; [reflexivity|apply Rlt_le, len2_pos; lra]).
  assert (Low : forall t, 0 <= t <= T -> D - T <= Q t) by (intros t Ht; pose proof (len_lower D y t HD Hy ltac:(lra)); unfold Q; lra).
  assert (Start : S_ 0 * Q 0 = 1).
  { assert (E0 : forall n, expansion (coef D y) (S n) 0 = / D).
    { induction n as [|n IHn]; [cbn [expansion pow]; rewrite coef_0; ring|]. change (expansion (coef D y) (S (S n)) 0) with (expansion (coef D y) (S n) 0 + coef D y (S n) * 0 ^ S n). rewrite IHn, pow_i by lia. ring. }
    unfold S_, Q, len2. rewrite E0. replace (D ^ 2 - 2 * y * 0 + 0 ^ 2) with (Rsqr D) by (unfold Rsqr; ring). rewrite sqrt_Rsqr by lra. field. lra. }
  assert (Main : Rabs (S_ T * Q T - 1) <= (D + T) / (D ^ S N * (D - T)) * T ^ S N).
  { destruct (Req_EM_T T 0) as [->|NT]; [rewrite Start, pow_i by lia; rewrite Rminus_eq_0, Rabs_R0; lra|].
    rewrite <- Start.
    apply (growth (fun t => S_ t * Q t) (fun t => (INR (S N) * t ^ N * (coef D y N * t - D ^ 2 * coef D y (S N))) / Q t)); [lra| |].
    - intros t Ht. pose proof (HQ t Ht) as Pq.
      assert (Dq : is_derive Q t ((t - y) / Q t)).
      { unfold Q. unfold len2. auto_derive; [pose proof (len2_pos D y t HD Hy ltac:(lra)) as LP; unfold len2 in LP; cbn [pow] in *; lra|].
        fold (len2 D y t). replace (D * (D * 1) + - (2 * y * t) + t * (t * 1)) with (len2 D y t) by (unfold len2; ring). fold (Q t). field. lra. }
      eapply is_derive_eq; [apply (is_derive_mult S_ Q t _ _ (expansion_derive (coef D y) (S N) t) Dq); intros; apply Rmult_comm|].
      unfold plus, mult; cbn -[expansion expansion' pow INR]. pose proof (expansion_residual D y N t HD Hy) as E. rewrite <- (HQ2 t Ht) in E. fold S_ in E |- *. rewrite <- E. req. field. lra.
    - intros t Ht. pose proof (HQ t Ht) as Pq. unfold Rdiv at 1. rewrite Rabs_mult, (Rabs_pos_eq (/ Q t)) by (apply Rlt_le, Rinv_0_lt_compat; exact Pq).
      pose proof (residual_bound D y N t HD Hy ltac:(lra)) as RB. pose proof (pow_le t N ltac:(lra)) as Pt. pose proof (pos_INR (S N)) as PN. assert (PD : 0 < D ^ S N) by (apply pow_lt; exact HD).
      assert (I : / Q t <= / (D - T)) by (apply Rinv_le_contravar; [lra|apply Low; exact Ht]).
      apply Rle_trans with (INR (S N) * t ^ N * ((t + D) / D ^ S N) * / (D - T)).
      + apply Rmult_le_compat; [apply Rabs_pos|apply Rlt_le, Rinv_0_lt_compat; exact Pq|exact RB|exact I].
      + apply Rle_trans with (INR (S N) * t ^ N * ((T + D) / D ^ S N) * / (D - T)); [|right; field; split; [|apply pow_nonzero]; lra].
        apply Rmult_le_compat_r; [apply Rlt_le, Rinv_0_lt_compat; lra|]. apply Rmult_le_compat_l; [apply Rmult_le_pos; assumption|]. apply Rmult_le_compat_r; [apply Rlt_le, Rinv_0_lt_compat; exact PD|lra]. }
  pose proof (HQ T ltac:(lra)) as Pq. pose proof (Low T ltac:(lra)) as LT.
  replace (/ sqrt (len2 D y T) - S_ T) with (- (S_ T * Q T - 1) * / Q T) by (fold (Q T); field; lra).
  rewrite Rabs_mult, Rabs_Ropp, (Rabs_pos_eq (/ Q T)) by (apply Rlt_le, Rinv_0_lt_compat; exact Pq).
  assert (I : / Q T <= / (D - T)) by (apply Rinv_le_contravar; lra).
  apply Rle_trans with ((D + T) / (D ^ S N * (D - T)) * T ^ S N * / (D - T)).
  - apply Rmult_le_compat; [apply Rabs_pos|apply Rlt_le, Rinv_0_lt_compat; exact Pq|exact Main|exact I].
  - right. unfold Rdiv. rewrite Rpow_mult_distr, pow_inv. field. split; [lra|apply pow_nonzero; lra].
Qed.
