(** The expansion of 1/(D^2 - 2 y t + t^2)^(3/2) in powers of t (used by C82 and C83). *)
From Coq Require Import Reals ZArith Lra Lia Psatz.
From Coquelicot Require Import Coquelicot.
From Verif Require Import Base BaseFacts Vec GeomModel OutwardFacts FieldModel FieldFacts SeriesModel SeriesFacts InterpFacts LegendreFacts RadialSeriesFacts.
Local Open Scope R_scope.

(** The Gegenbauer polynomials with parameter 3/2 at c = cos theta. *)
Fixpoint geg_pair (n : nat) (c s : R) : R * R :=
  match n with
  | 0%nat => (1, 3 * c)
  | S m => let '(a, b) := geg_pair m c s in (b, a + (2 * INR (S (S m)) + 1) * leg (S (S m)) c s)
  end.
Definition geg n c s := fst (geg_pair n c s).
Lemma geg_0 c s : geg 0 c s = 1. Proof. reflexivity. Qed.
Lemma geg_1 c s : geg 1 c s = 3 * c. Proof. reflexivity. Qed.
Lemma geg_SS n c s : geg (S (S n)) c s = geg n c s + (2 * INR (S (S n)) + 1) * leg (S (S n)) c s.
Proof. unfold geg. cbn [geg_pair]. destruct (geg_pair n c s). reflexivity. Qed.
Lemma leg_0 c s : leg 0 c s = 1. Proof. reflexivity. Qed.
Lemma leg_1 c s : leg 1 c s = c. Proof. rewrite leg_S. unfold leg, legw. cbn. field. Qed.
Lemma pair_ind (P : nat -> Prop) : P 0%nat -> P 1%nat -> (forall n, P n -> P (S n) -> P (S (S n))) -> forall n, P n.
Proof. intros H0 H1 HS n. assert (P n /\ P (S n)) as [H _]; [|exact H]. induction n as [|n [I1 I2]]; [split; assumption|]. split; [exact I2|]. apply HS; assumption. Qed.
Lemma geg_bound n c s : c ^ 2 + s ^ 2 = 1 -> Rabs (geg n c s) <= INR (S n) * INR (S (S n)) / 2.
Proof.
  intros H. revert n. apply pair_ind.
  - rewrite geg_0, Rabs_R1. cbn [INR]. lra.
  - rewrite geg_1, Rabs_mult, (Rabs_pos_eq 3) by lra. pose proof (leg_bound 1 c s H) as B. rewrite leg_1 in B. cbn [INR]. lra.
  - intros n I1 _. rewrite geg_SS. eapply Rle_trans; [apply Rabs_triang|]. pose proof (leg_bound (S (S n)) c s H) as B. pose proof (INR_S_pos n) as P0. pose proof (INR_S_pos (S n)) as P1.
    rewrite (Rabs_mult (2 * INR (S (S n)) + 1)), (Rabs_pos_eq (2 * INR (S (S n)) + 1)) by lra.
    rewrite (S_INR (S (S (S n)))), (S_INR (S (S n))). rewrite (S_INR (S n)) in *. set (k := INR (S n)) in *. clearbody k. nra.
Qed.
Lemma geg_mult n c s : c ^ 2 + s ^ 2 = 1 -> c * geg (S n) c s = geg n c s + INR (S (S n)) * leg (S (S n)) c s.
Proof.
  intros H. revert n. apply pair_ind.
  - rewrite geg_1, geg_0. rewrite (leg_rec 0 c s H), leg_1, leg_0. cbn [INR]. ring.
  - rewrite geg_SS, geg_1, geg_0. rewrite (leg_rec 1 c s H), leg_1. cbn [INR]. ring.
  - intros n I1 _. rewrite (geg_SS (S n)), (geg_SS n). rewrite Rmult_plus_distr_l, I1. pose proof (leg_rec (S (S n)) c s H) as L. rewrite L.
    rewrite (S_INR (S (S n))). set (k := INR (S (S n))). clearbody k. ring.
Qed.
Lemma geg_rec n c s : c ^ 2 + s ^ 2 = 1 -> INR (S (S n)) * geg (S (S n)) c s = (2 * INR (S n) + 3) * c * geg (S n) c s - (INR (S n) + 2) * geg n c s.
Proof.
  intros H. rewrite Rmult_assoc, (geg_mult n c s H), geg_SS, (S_INR (S n)). set (k := INR (S n)). clearbody k. ring.
Qed.

(** coefficient n of the expansion *)
Definition coef3 (D y : R) (n : nat) : R := geg n (y / D) (sqrt (1 - (y / D) ^ 2)) / D ^ (n + 3).
Lemma coef3_bound D y n : 0 < D -> Rabs y <= D -> Rabs (coef3 D y n) <= INR (S n) * INR (S (S n)) / 2 / D ^ (n + 3).
Proof.
  intros HD Hy. unfold coef3, Rdiv at 1 5. assert (P : 0 < / D ^ (n + 3)) by (apply Rinv_0_lt_compat, pow_lt; exact HD).
  rewrite Rabs_mult, (Rabs_pos_eq (/ D ^ (n + 3))) by lra. apply Rmult_le_compat_r; [lra|]. apply geg_bound. apply cos_sin_unit. apply ratio_bound; assumption.
Qed.
Lemma coef3_0 D y : coef3 D y 0 = / D ^ 3.
Proof. unfold coef3. rewrite geg_0. cbn [Nat.add]. unfold Rdiv. apply Rmult_1_l. Qed.
Lemma coef3_1 D y : D <> 0 -> coef3 D y 1 = 3 * y / D ^ 5.
Proof. intros H. unfold coef3. rewrite geg_1. cbn [Nat.add]. field. exact H. Qed.
Lemma coef3_rec D y n : 0 < D -> Rabs y <= D -> D ^ 2 * INR (S (S n)) * coef3 D y (S (S n)) = (2 * INR (S n) + 3) * y * coef3 D y (S n) - (INR (S n) + 2) * coef3 D y n.
Proof.
  intros HD Hy. pose proof (geg_rec n (y / D) (sqrt (1 - (y / D) ^ 2)) (cos_sin_unit _ (ratio_bound D y HD Hy))) as L. unfold coef3.
  replace (D ^ 2 * INR (S (S n)) * (geg (S (S n)) (y / D) (sqrt (1 - (y / D) ^ 2)) / D ^ (S (S n) + 3))) with ((INR (S (S n)) * geg (S (S n)) (y / D) (sqrt (1 - (y / D) ^ 2))) / D ^ (n + 3))
    by (cbn [Nat.add pow]; field; split; [apply pow_nonzero|]; lra).
  rewrite L. cbn [Nat.add pow]. field. split; [apply pow_nonzero|]; lra.
Qed.
Lemma expansion3_residual D y N (t : R) : 0 < D -> Rabs y <= D ->
  len2 D y t * expansion' (coef3 D y) (S N) t - 3 * (y - t) * expansion (coef3 D y) (S N) t = t ^ N * ((INR (S N) + 2) * coef3 D y N * t - D ^ 2 * INR (S N) * coef3 D y (S N)).
Proof.
  intros HD Hy. induction N as [|n IH].
  - cbn [expansion expansion' INR pow pred]. rewrite coef3_0, coef3_1 by lra. unfold len2. field. lra.
  - change (expansion' (coef3 D y) (S (S n)) t) with (expansion' (coef3 D y) (S n) t + coef3 D y (S n) * (INR (S n) * t ^ n)).
    change (expansion (coef3 D y) (S (S n)) t) with (expansion (coef3 D y) (S n) t + coef3 D y (S n) * t ^ S n).
    pose proof (coef3_rec D y n HD Hy) as E. rewrite (S_INR (S n)) in E |- *.
    transitivity ((len2 D y t * expansion' (coef3 D y) (S n) t - 3 * (y - t) * expansion (coef3 D y) (S n) t) + coef3 D y (S n) * t ^ n * (INR (S n) * len2 D y t - 3 * (y - t) * t)); [cbn [pow]; ring|].
    rewrite IH. unfold len2.
    transitivity ((INR (S n) + 1 + 2) * coef3 D y (S n) * t ^ n * t ^ 2 - t ^ n * t * ((2 * INR (S n) + 3) * y * coef3 D y (S n) - (INR (S n) + 2) * coef3 D y n)); [cbn [pow]; ring|].
    rewrite <- E. cbn [pow]. ring.
Qed.
Lemma len2_upper D y t : 0 < D -> Rabs y <= D -> 0 <= t -> len2 D y t <= (D + t) ^ 2.
Proof. intros HD Hy Ht. apply Rabs_le_between in Hy. unfold len2. nra. Qed.
Lemma len_upper D y t : 0 < D -> Rabs y <= D -> 0 <= t -> sqrt (len2 D y t) <= D + t.
Proof. intros HD Hy Ht. rewrite <- (sqrt_Rsqr (D + t)) by lra. apply sqrt_le_1_alt. rewrite Rsqr_pow2. apply len2_upper; lra. Qed.
Lemma residual3_bound D y N t : 0 < D -> Rabs y <= D -> 0 <= t ->
  Rabs (t ^ N * ((INR (S N) + 2) * coef3 D y N * t - D ^ 2 * INR (S N) * coef3 D y (S N))) <= (INR (S (S N)) * INR (S (S (S N))) / 2) * (INR (S N) * t ^ N * ((t + D) / D ^ (N + 3))).
Proof.
  intros HD Hy Ht. pose proof (pow_le t N Ht) as Pt. pose proof (INR_S_pos N) as PN. rewrite Rabs_mult, (Rabs_pos_eq (t ^ N)) by exact Pt.
  replace (INR (S (S N)) * INR (S (S (S N))) / 2 * (INR (S N) * t ^ N * ((t + D) / D ^ (N + 3)))) with (t ^ N * (INR (S N) * INR (S (S N)) * INR (S (S (S N))) / 2 * ((t + D) / D ^ (N + 3)))) by (field; apply pow_nonzero; lra).
  apply Rmult_le_compat_l; [exact Pt|].
  unfold Rminus. eapply Rle_trans; [apply Rabs_triang|]. rewrite Rabs_Ropp, !Rabs_mult, (Rabs_pos_eq t), (Rabs_pos_eq (D ^ 2)), (Rabs_pos_eq (INR (S N))), (Rabs_pos_eq (INR (S N) + 2)) by (try apply pow_le; lra).
  pose proof (coef3_bound D y N HD Hy) as B1. pose proof (coef3_bound D y (S N) HD Hy) as B2.
  assert (PD : 0 < D ^ 2 * INR (S N)) by (apply Rmult_lt_0_compat; [apply pow_lt; exact HD|exact PN]).
  apply Rle_trans with ((INR (S N) + 2) * (INR (S N) * INR (S (S N)) / 2 / D ^ (N + 3)) * t + D ^ 2 * INR (S N) * (INR (S (S N)) * INR (S (S (S N))) / 2 / D ^ (S N + 3))).
  - apply Rplus_le_compat; [apply Rmult_le_compat_r; [exact Ht|]; apply Rmult_le_compat_l; [lra|exact B1]|]. apply Rmult_le_compat_l; [lra|exact B2].
  - right. cbn [Nat.add pow]. rewrite (S_INR (S (S N))), (S_INR (S N)). field. split; [apply pow_nonzero|]; lra.
Qed.
Theorem expansion3_error D y N T : 0 < D -> Rabs y <= D -> 0 <= T < D ->
  Rabs (/ sqrt (len2 D y T) ^ 3 - expansion (coef3 D y) (S N) T) <= INR (S (S N)) * INR (S (S (S N))) / 2 * (T / D) ^ S N * ((D + T) / D) ^ 2 / (D - T) ^ 3.
Proof.
  intros HD Hy HT. set (S_ := expansion (coef3 D y) (S N)). set (Q := fun t => sqrt (len2 D y t)).
  assert (HQ : forall t, 0 <= t <= T -> 0 < Q t) by (intros t Ht; apply sqrt_lt_R0, len2_pos; lra).
  assert (HQ2 : forall t, 0 <= t <= T -> Q t ^ 2 = len2 D y t) by (intros t Ht; unfold Q; rewrite <- Rsqr_pow2, Rsqr_sqrt; [reflexivity|apply Rlt_le, len2_pos; lra]).
  assert (Low : forall t, 0 <= t <= T -> D - T <= Q t) by (intros t Ht; pose proof (len_lower D y t HD Hy ltac:(lra)); unfold Q; lra).
  assert (Start : S_ 0 * Q 0 ^ 3 = 1).
  { assert (E0 : forall n, expansion (coef3 D y) (S n) 0 = / D ^ 3).
    { induction n as [|n IHn]; [cbn [expansion]; rewrite coef3_0; cbn [pow]; ring|]. change (expansion (coef3 D y) (S (S n)) 0) with (expansion (coef3 D y) (S n) 0 + coef3 D y (S n) * 0 ^ S n). rewrite IHn, (pow_i (S n)) by lia. ring. }
    unfold S_, Q, len2. rewrite E0. replace (D ^ 2 - 2 * y * 0 + 0 ^ 2) with (Rsqr D) by (unfold Rsqr; ring). rewrite sqrt_Rsqr by lra. field. lra. }
  set (M := INR (S (S N)) * INR (S (S (S N))) / 2). assert (PM : 0 <= M) by (unfold M; pose proof (pos_INR (S (S N))); pose proof (pos_INR (S (S (S N)))); nra).
  assert (Main : Rabs (S_ T * Q T ^ 3 - 1) <= M * (D + T) ^ 2 / D ^ (N + 3) * T ^ S N).
  { destruct (Req_EM_T T 0) as [->|NT]; [rewrite Start, (pow_i (S N)) by lia; rewrite Rminus_eq_0, Rabs_R0; lra|].
    rewrite <- Start.
    apply (growth (fun t => S_ t * Q t ^ 3) (fun t => (t ^ N * ((INR (S N) + 2) * coef3 D y N * t - D ^ 2 * INR (S N) * coef3 D y (S N))) * Q t)); [lra| |].
    - intros t Ht. pose proof (HQ t Ht) as Pq.
      assert (Dq : is_derive Q t ((t - y) / Q t)).
      { unfold Q. unfold len2. auto_derive; [pose proof (len2_pos D y t HD Hy ltac:(lra)) as LP; unfold len2 in LP; cbn [pow] in *; lra|].
        fold (len2 D y t). replace (D * (D * 1) + - (2 * y * t) + t * (t * 1)) with (len2 D y t) by (unfold len2; ring). fold (Q t). field. lra. }
      assert (Dq3 : is_derive (fun t => Q t ^ 3) t (3 * (t - y) * Q t)).
      { eapply is_derive_eq; [apply (is_derive_pow Q 3 t _ Dq)|]. cbn [INR pred pow]. field. lra. }
      eapply is_derive_eq; [apply (is_derive_mult S_ (fun t => Q t ^ 3) t _ _ (expansion_derive (coef3 D y) (S N) t) Dq3); intros; apply Rmult_comm|].
      unfold plus, mult; cbn -[expansion expansion' pow INR]. pose proof (expansion3_residual D y N t HD Hy) as E. rewrite <- (HQ2 t Ht) in E. fold S_ in E |- *. rewrite <- E. req. ring.
    - intros t Ht. pose proof (HQ t Ht) as Pq. rewrite Rabs_mult, (Rabs_pos_eq (Q t)) by lra.
      pose proof (residual3_bound D y N t HD Hy ltac:(lra)) as RB. fold M in RB. pose proof (pow_le t N ltac:(lra)) as Pt. pose proof (pos_INR (S N)) as PN. assert (PD : 0 < D ^ (N + 3)) by (apply pow_lt; exact HD).
      pose proof (len_upper D y t HD Hy ltac:(lra)) as UQ. fold (Q t) in UQ.
      apply Rle_trans with (M * (INR (S N) * t ^ N * ((T + D) / D ^ (N + 3))) * (D + T)).
      + apply Rmult_le_compat; [apply Rabs_pos|lra| |lra]. eapply Rle_trans; [exact RB|]. apply Rmult_le_compat_l; [exact PM|]. apply Rmult_le_compat_l; [apply Rmult_le_pos; assumption|].
        apply Rmult_le_compat_r; [apply Rlt_le, Rinv_0_lt_compat; exact PD|lra].
      + right. field. lra. }
  pose proof (HQ T ltac:(lra)) as Pq. pose proof (Low T ltac:(lra)) as LT. assert (Pq3 : 0 < Q T ^ 3) by (apply pow_lt; exact Pq).
  replace (/ sqrt (len2 D y T) ^ 3 - S_ T) with (- (S_ T * Q T ^ 3 - 1) * / Q T ^ 3) by (fold (Q T); field; lra).
  rewrite Rabs_mult, Rabs_Ropp, (Rabs_pos_eq (/ Q T ^ 3)) by (apply Rlt_le, Rinv_0_lt_compat; exact Pq3).
  assert (I : / Q T ^ 3 <= / (D - T) ^ 3) by (apply Rinv_le_contravar; [apply pow_lt; lra|apply pow_incr; lra]).
  apply Rle_trans with (M * (D + T) ^ 2 / D ^ (N + 3) * T ^ S N * / (D - T) ^ 3).
  - apply Rmult_le_compat; [apply Rabs_pos|apply Rlt_le, Rinv_0_lt_compat; exact Pq3|exact Main|exact I].
  - right. unfold Rdiv. rewrite (Rpow_mult_distr T), pow_inv. rewrite pow_add. cbn [pow]. field. repeat split; try lra. apply pow_nonzero; lra.
Qed.
