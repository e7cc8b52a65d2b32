(** The field of an axial field is bounded on bounded regions. *)
From Coq Require Import Reals Lra Lia Psatz.
From Coquelicot Require Import Coquelicot.
From Verif Require Import Base BaseFacts Vec GeomModel OutwardFacts FieldModel FieldFacts SeriesModel SeriesFacts InterpFacts DispatchModel TracingModel TracingFacts ConvStep BemSmooth ProgressSpec ProgressFacts.
Local Open Scope R_scope.

Definition absp (c : poly6) : R := let '(c0, c1, c2, c3, c4, c5) := c in Rabs c0 + Rabs c1 + Rabs c2 + Rabs c3 + Rabs c4 + Rabs c5.
Lemma poly_bound c d Z : 1 <= Z -> Rabs d <= Z -> Rabs (poly_at c d) <= absp c * Z ^ 5.
Proof.
  intros HZ Hd. destruct c as [[[[[c0 c1] c2] c3] c4] c5]. unfold poly_at, absp.
  assert (T : forall x k, (k <= 5)%nat -> Rabs (x * d ^ k) <= Rabs x * Z ^ 5).
  { intros x k Hk. rewrite Rabs_mult, <- RPow_abs. apply Rmult_le_compat_l; [apply Rabs_pos|]. eapply Rle_trans; [apply pow_incr; split; [apply Rabs_pos|exact Hd]|]. apply Rle_pow; assumption. }
  pose proof (T c0 5%nat ltac:(lia)). pose proof (T c1 4%nat ltac:(lia)). pose proof (T c2 3%nat ltac:(lia)). pose proof (T c3 2%nat ltac:(lia)). pose proof (T c4 1%nat ltac:(lia)) as T4. pose proof (T c5 0%nat ltac:(lia)) as T5.
  rewrite pow_1 in T4. rewrite pow_O, Rmult_1_r in T5.
  repeat (eapply Rle_trans; [apply Rabs_triang|]; rewrite ?Rmult_plus_distr_r; apply Rplus_le_compat; [|assumption]). assumption.
Qed.
Definition absrow (row : coeff_row) : R := Rsum (map (fun i => absp (row i)) (seq 0 9)).
Lemma absp_pos c : 0 <= absp c.
Proof. destruct c as [[[[[c0 c1] c2] c3] c4] c5]. unfold absp. pose proof (Rabs_pos c0). pose proof (Rabs_pos c1). pose proof (Rabs_pos c2). pose proof (Rabs_pos c3). pose proof (Rabs_pos c4). pose proof (Rabs_pos c5). lra. Qed.
Lemma absrow_le row i : (i < 9)%nat -> absp (row i) <= absrow row.
Proof.
  intros Hi. unfold absrow. cbn [seq map Rsum]. pose proof (fun k => absp_pos (row k)) as P.
  pose proof (P 0%nat); pose proof (P 1%nat); pose proof (P 2%nat); pose proof (P 3%nat); pose proof (P 4%nat); pose proof (P 5%nat); pose proof (P 6%nat); pose proof (P 7%nat); pose proof (P 8%nat).
  do 9 (destruct i as [|i]; [lra|]). lia.
Qed.
Lemma absrow_pos row : 0 <= absrow row.
Proof. pose proof (absrow_le row 0 ltac:(lia)). pose proof (absp_pos (row 0%nat)). lra. Qed.
Fixpoint abstable (l : list coeff_row) : R := match l with [] => 0 | r :: l => absrow r + abstable l end.
Lemma abstable_pos l : 0 <= abstable l.
Proof. induction l as [|r l IH]; cbn [abstable]; [lra|]. pose proof (absrow_pos r). lra. Qed.
Lemma abstable_le l j row : nth_error l j = Some row -> absrow row <= abstable l.
Proof.
  revert j. induction l as [|r l IH]; intros [|j] H; try discriminate; cbn [abstable nth_error] in *; [injection H as ->; pose proof (abstable_pos l); lra|]. specialize (IH j H). pose proof (absrow_pos r). lra.
Qed.
Lemma series_bound d p B X : 0 <= B -> 1 <= X -> (forall i, (i < 9)%nat -> Rabs (d i) <= B) -> Rabs (vx p) <= X -> Rabs (vy p) <= X -> norm (field_series d p) <= 100 * (B * X ^ 7).
Proof.
  intros HB HX Hd Hx Hy. set (r := norm_2d (vx p) (vy p)).
  assert (r2 : 0 <= r ^ 2 <= 2 * X ^ 2). { unfold r. rewrite norm_2d_sqr. rewrite <- (pow2_abs (vx p)), <- (pow2_abs (vy p)). pose proof (Rabs_pos (vx p)). pose proof (Rabs_pos (vy p)). split; [nra|].
    assert (Rabs (vx p) ^ 2 <= X ^ 2) by (apply pow_incr; lra). assert (Rabs (vy p) ^ 2 <= X ^ 2) by (apply pow_incr; lra). lra. }
  assert (X2 : 1 <= X ^ 2) by nra. assert (r4 : 0 <= r ^ 4 <= 4 * X ^ 6). { replace (r ^ 4) with (r ^ 2 * r ^ 2) by ring. replace (4 * X ^ 6) with (2 * X ^ 2 * (2 * (X ^ 2 * X ^ 2))) by ring. split; [nra|]. apply Rmult_le_compat; try lra. nra. }
  assert (r6 : 0 <= r ^ 6 <= 8 * X ^ 6). { replace (r ^ 6) with ((r ^ 2) ^ 3) by ring. replace (8 * X ^ 6) with ((2 * X ^ 2) ^ 3) by ring. split; [apply pow_le; lra|apply pow_incr; lra]. }
  assert (X6 : X ^ 2 <= X ^ 6) by (apply Rle_pow; [lra|lia]). assert (X6' : 1 <= X ^ 6) by lra.
  assert (M : forall x k y, Rabs y <= B -> 0 <= x <= k * X ^ 6 -> Rabs (x * y) <= k * (B * X ^ 6)).
  { intros x k y Hy' [P1 P2]. rewrite Rabs_mult, (Rabs_pos_eq x P1). replace (k * (B * X ^ 6)) with (k * X ^ 6 * B) by ring. apply Rmult_le_compat; try assumption. apply Rabs_pos. }
  set (W := B * X ^ 6) in *. assert (WB : B <= W) by (unfold W; nra).
  pose proof (M (r ^ 2 / 8) (/ 4) (d 4%nat) (Hd 4%nat ltac:(lia)) ltac:(lra)) as A4. pose proof (M (r ^ 4 / 192) (/ 48) (d 6%nat) (Hd 6%nat ltac:(lia)) ltac:(lra)) as A6. pose proof (M (r ^ 6 / 9216) (/ 1152) (d 8%nat) (Hd 8%nat ltac:(lia)) ltac:(lra)) as A8.
  pose proof (M (r ^ 2 / 4) (/ 2) (d 3%nat) (Hd 3%nat ltac:(lia)) ltac:(lra)) as A3. pose proof (M (r ^ 4 / 64) (/ 16) (d 5%nat) (Hd 5%nat ltac:(lia)) ltac:(lra)) as A5. pose proof (M (r ^ 6 / 2304) (/ 288) (d 7%nat) (Hd 7%nat ltac:(lia)) ltac:(lra)) as A7.
  pose proof (Hd 1%nat ltac:(lia)) as A1. pose proof (Hd 2%nat ltac:(lia)) as A2. apply Rabs_le_between in A1, A2, A3, A4, A5, A6, A7, A8.
  set (fr := 0.5 * (d 2%nat - r ^ 2 / 8 * d 4%nat + r ^ 4 / 192 * d 6%nat - r ^ 6 / 9216 * d 8%nat)).
  set (fz := - d 1%nat + r ^ 2 / 4 * d 3%nat - r ^ 4 / 64 * d 5%nat + r ^ 6 / 2304 * d 7%nat).
  assert (Fr : Rabs fr <= 2 * W) by (apply Rabs_le_between; unfold fr; lra). assert (Fz : Rabs fz <= 3 * W) by (apply Rabs_le_between; unfold fz; lra).
  eapply Rle_trans; [apply norm_le_sum|]. change (Rabs (vx p * fr) + Rabs (vy p * fr) + Rabs fz <= 100 * (B * X ^ 7)). rewrite !Rabs_mult. replace (B * X ^ 7) with (X * W) by (unfold W; ring).
  assert (Rabs (vx p) * Rabs fr <= X * (2 * W)) by (apply Rmult_le_compat; try apply Rabs_pos; assumption). assert (Rabs (vy p) * Rabs fr <= X * (2 * W)) by (apply Rmult_le_compat; try apply Rabs_pos; assumption). nra.
Qed.
Lemma derivs_bound z0 h N coeff p X : 0 < h -> (2 <= N)%nat -> length coeff = (N - 1)%nat -> vz p <> z0 + INR (N - 1) * h -> 1 <= X -> Rabs (vx p) <= X -> Rabs (vy p) <= X ->
  exists E, field_radial_derivs p (samples z0 h N) coeff = Ok E /\ norm E <= 100 * (abstable coeff * (1 + h) ^ 5 * X ^ 7).
Proof.
  intros Hh HN Hl Hz HX Hx Hy. assert (P : 0 <= 100 * (abstable coeff * (1 + h) ^ 5 * X ^ 7)).
  { pose proof (abstable_pos coeff). apply Rmult_le_pos; [lra|]. apply Rmult_le_pos; [apply Rmult_le_pos; [lra|]|]; apply pow_le; lra. }
  unfold field_radial_derivs.
  destruct (Rlt_le_dec (vz p) z0) as [L|L]; [rewrite derivs_outside by (assumption || lra); exists vzero; split; [reflexivity|rewrite norm_zero_eq; exact P]|].
  destruct (Rlt_le_dec (z0 + INR (N - 1) * h) (vz p)) as [L2|L2]; [rewrite derivs_outside by (assumption || lra); exists vzero; split; [reflexivity|rewrite norm_zero_eq; exact P]|].
  destruct (cell_exists z0 h N (vz p) Hh HN) as (j & Hj & Hc); [lra|].
  destruct (derivs_inside z0 h N coeff (vz p) j Hh Hj Hc Hl) as (row & Er & E). rewrite E. cbn [bind]. eexists. split; [reflexivity|].
  apply series_bound; try assumption; [apply Rmult_le_pos; [apply abstable_pos|apply pow_le; lra]|]. intros i Hi.
  eapply Rle_trans; [apply (poly_bound _ _ (1 + h)); [lra|rewrite Rabs_pos_eq; lra]|]. apply Rmult_le_compat_r; [apply pow_le; lra|]. eapply Rle_trans; [apply absrow_le; exact Hi|]. eapply abstable_le; exact Er.
Qed.
Lemma within_range b p : within b p = true -> vx (b_lo b) <= vx p <= vx (b_hi b) /\ vy (b_lo b) <= vy p <= vy (b_hi b) /\ vz (b_lo b) <= vz p <= vz (b_hi b).
Proof.
  unfold within, leb. intros H. repeat (destruct (Rle_dec _ _); [|rewrite ?andb_false_r in H; discriminate]). repeat split; assumption.
Qed.
