(** The error of a pair of polynomials against an elliptic integral, from the computed bounds. *)
From Coq Require Import Reals Lra Lia Psatz List ZArith QArith Qreals Qround.
From Coquelicot Require Import Coquelicot.
From Verif Require Import PolyBound EllipticSeries EllipticNum EllipticCert.
Import ListNotations.
Local Open Scope R_scope.

(** ** Without the logarithm: [m = 1 - x] at most [1/2] *)
Definition minus_ln (n : nat) : Q := match n with O => 0 | S k => 1 # Pos.of_succ_nat k end.
Lemma minus_ln_ok N m : fpartial (fun n => Q2R (minus_ln n)) N m = - ln_sum N (- m).
Proof.
  induction N as [|N IH]; [cbn; ring|]. cbn [fpartial ln_sum]. rewrite IH. replace (Q2R (minus_ln N) * m ^ N) with (- (Q2R (lnc N) * (- m) ^ N)); [ring|].
  destruct N as [|k]; [unfold lnc, minus_ln, Q2R; cbn; ring|]. rewrite lnc_ok. replace (Q2R (minus_ln (S k))) with (/ INR (S k)) by (unfold minus_ln, Q2R; cbn [Qnum Qden]; rewrite succ_IZR, <- S_INR; ring).
  replace (- m) with (-1 * m) by ring. rewrite Rpow_mult_distr. cbn [pow]. replace ((-1) ^ k / INR (S k) * (-1 * (-1) ^ k * (m * m ^ k))) with (- (((-1) ^ k * (-1) ^ k) * (/ INR (S k) * (m * m ^ k)))) by (unfold Rdiv; ring). rewrite <- Rpow_mult_distr. replace (-1 * -1) with 1 by ring. rewrite pow1. ring.
Qed.
Section Regular.
Variables AZ BZ TZ LZ : list Z.
(** scaled by [2^64] *)
Definition Hz : list Z := map (fun x => Z.shiftr x 64) (padd (pscale S_bits (padd (pneg (pshift AZ)) (map Z.opp TZ))) (pmul LZ (pneg (pshift BZ)))).
Definition check_cell (H : list Z) (j : Z) : bool := let A := around j j 8 H in (pbound j (fst A) + snd A + 60 <=? 29 * 2 ^ 64 / 10 ^ 14)%Z.
Definition check_reg (H : list Z) : bool := smallb H && forallb (fun i => check_cell H (2 * i + 1)) (map Z.of_nat (seq 0 65)).
Lemma shiftr_list l m : 0 <= m <= 1 / 2 -> Rabs (peval (map (fun x => Z.shiftr x 64) l) m - peval l m / 2 ^ 64) <= 2.
Proof.
  intros Hm. induction l as [|a l IH]; cbn [map peval]; [unfold Rdiv; rewrite Rmult_0_l, Rminus_0_r, Rabs_R0; lra|]. pose proof (shiftr_IZR a 64 ltac:(lia)) as D. change (two 64) with (two (Z.of_nat 64)) in D. rewrite two_pow in D.
  set (p := peval (map _ l) m) in *. set (q := peval l m) in *. set (z := IZR (Z.shiftr a 64)) in *. set (y := IZR a) in *. set (K := 2 ^ 64) in *. clearbody K p q z y.
  replace (z + m * p - (y + m * q) / K) with ((z - y / K) + m * (p - q / K)) by (unfold Rdiv; ring). eapply Rle_trans; [apply Rabs_triang|]. rewrite Rabs_mult, (Rabs_pos_eq m) by lra.
  assert (Rabs (z - y / K) <= 1) by (apply Rabs_le; lra). assert (m * Rabs (p - q / K) <= 1 / 2 * 2) by (apply Rmult_le_compat; try apply Rabs_pos; lra). lra.
Qed.
Lemma Hz_ok m : 0 <= m <= 1 / 2 -> Rabs (peval Hz m - (peval AZ (1 - m) - peval TZ m + peval LZ m * peval BZ (1 - m) / 2 ^ 64)) <= 2.
Proof.
  intros Hm. unfold Hz. pose proof (shiftr_list (padd (pscale S_bits (padd (pneg (pshift AZ)) (map Z.opp TZ))) (pmul LZ (pneg (pshift BZ)))) m Hm) as Q.
  rewrite peval_padd, peval_pscale, peval_padd, peval_pmul, !peval_pneg, peval_opp, !peval_pshift, S_pow in Q. replace (1 + - m) with (1 - m) in Q by ring.
  set (h := peval (map _ _) m) in *. clearbody h. set (a := peval AZ (1 - m)) in *. set (t := peval TZ m) in *. set (l := peval LZ m) in *. set (b := peval BZ (1 - m)) in *. clearbody a t l b.
  replace (a - t + l * b / 2 ^ 64) with ((2 ^ 64 * (a + - t) + l * b) / 2 ^ 64) by (field; apply pow_nonzero; lra). exact Q.
Qed.
End Regular.
Lemma check_cell_real H j : check_cell H j = true -> IZR (pbound j (fst (around j j 8 H))) + IZR (snd (around j j 8 H)) + 60 <= 29 * 2 ^ 64 / 10 ^ 14.
Proof.
  intros C. unfold check_cell in C. cbv zeta in C. apply Z.leb_le in C. apply IZR_le in C. rewrite !plus_IZR in C. pose proof (eps_IZR 64 ltac:(lia)) as Eps. set (k := IZR (29 * 2 ^ 64 / 10 ^ 14)) in *. clearbody k.
  change 64%Z with (Z.of_nat 64) in Eps. rewrite two_pow in Eps. set (w := IZR (pbound _ _)) in *. set (u := IZR (snd _)) in *. clearbody u w. eapply Rle_trans; [exact C|exact Eps].
Qed.
Lemma regular_cells H m : check_reg H = true -> 0 <= m <= 1 / 2 -> Rabs (peval H m) + 60 <= 29 * 2 ^ 64 / 10 ^ 14.
Proof.
  intros C Hm. apply andb_prop in C. destruct C as [Sm C]. apply smallb_ok in Sm. rewrite forallb_forall in C.
  assert (Y : IZR (2 * 0) <= m * 256 < IZR (2 * 65)) by (rewrite !mult_IZR; lra). destruct (odd_cell (m * 256) 0 65 Y) as (i & Hi & Hc).
  assert (C1 : check_cell H (2 * i + 1) = true). { apply C. rewrite <- (Z2Nat.id i) by lia. apply in_map, in_seq. lia. }
  clear C. apply check_cell_real in C1. set (j := (2 * i + 1)%Z) in *. assert (J : 1 <= IZR j) by (apply IZR_le; unfold j; lia). assert (J2 : IZR j <= 129) by (apply IZR_le; unfold j; lia). assert (Jp : (0 < j)%Z) by (unfold j; lia). assert (T8 : two 8 = 256) by (unfold two; reflexivity).
  set (v := m * 256 / IZR j - 1). assert (Hv : Rabs v <= / IZR j).
  { unfold v. replace (m * 256 / IZR j - 1) with ((m * 256 - IZR j) * / IZR j) by (field; lra). assert (I : 0 < / IZR j) by (apply Rinv_0_lt_compat; lra). rewrite Rabs_mult, (Rabs_pos_eq (/ _)) by lra. apply Rle_trans with (1 * / IZR j); [apply Rmult_le_compat_r; lra|lra]. }
  assert (Xe : IZR j / two 8 * (1 + v) = m) by (rewrite T8; unfold v; field; lra).
  pose proof (around_ok j j 8 H v Jp ltac:(lia) ltac:(lia) ltac:(rewrite T8; lra) Sm Hv ltac:(rewrite Xe; lra)) as A. rewrite Xe in A. pose proof (pbound_ok j (fst (around j j 8 H)) v Jp Hv) as B.
  set (a := peval (fst _) v) in *. set (b := peval H m) in *. set (w := IZR (pbound _ _)) in *. set (u := IZR (snd _)) in *. clearbody a b w u. assert (Rabs b <= Rabs a + u). { replace b with (a - (a - b)) by ring. eapply Rle_trans; [apply Rabs_triang|]. rewrite Rabs_Ropp. lra. }
  set (E := 29 * 2 ^ 64 / 10 ^ 14) in *. clearbody E. lra.
Qed.
(** the rounding of the product *)
Lemma regular_rounding (A B T L a b t l h : R) : Rabs (A * 2 ^ 64 - a) <= 8 -> Rabs (B * 2 ^ 64 - b) <= 8 -> Rabs (T * 2 ^ 64 - t) <= 2 -> Rabs (L * 2 ^ 64 - l) <= 2 -> Rabs B <= 8 -> Rabs L <= 2 ->
  Rabs (h - (a - t + l * b / 2 ^ 64)) <= 2 -> Rabs ((A + L * B - T) * 2 ^ 64 - h) <= 60.
Proof.
  intros HA HB HT HL B8 L2 Hh. set (K := 2 ^ 64) in *. assert (K1 : 2 <= K) by (unfold K; lra). clearbody K. assert (K0 : 0 < K) by lra.
  replace ((A + L * B - T) * K - h) with ((A * K - a) + (- (T * K - t) + ((L * K - l) * B + (l / K * (B * K - b) + - (h - (a - t + l * b / K)))))) by (field; lra).
  assert (X3 : Rabs ((L * K - l) * B) <= 2 * 8) by (rewrite Rabs_mult; apply Rmult_le_compat; try apply Rabs_pos; assumption).
  assert (Hl : Rabs (l / K) <= 3). { apply (Rmult_le_reg_r K); [exact K0|]. rewrite <- (Rabs_pos_eq K) at 2 by lra. rewrite <- Rabs_mult. replace (l / K * K) with (L * K - (L * K - l)) by (field; lra). eapply Rle_trans; [apply Rabs_triang|]. rewrite Rabs_Ropp, Rabs_mult, (Rabs_pos_eq K) by lra. assert (Rabs L * K <= 2 * K) by (apply Rmult_le_compat_r; lra). lra. }
  assert (X4 : Rabs (l / K * (B * K - b)) <= 3 * 8) by (rewrite Rabs_mult; apply Rmult_le_compat; try apply Rabs_pos; assumption).
  eapply Rle_trans; [eapply Rle_trans; [apply Rabs_triang|apply Rplus_le_compat_l; eapply Rle_trans; [apply Rabs_triang|apply Rplus_le_compat_l; eapply Rle_trans; [apply Rabs_triang|apply Rplus_le_compat_l, Rabs_triang]]]|]. rewrite !Rabs_Ropp. lra.
Qed.

(** ** The whole interval *)
Section Whole.
Variables (a0 b0 : Q) (A1 B1 : list Q) (pQ qQ tQ : nat -> Q) (l2 hp : Q).
Variables (A0 : R) (p q t : nat -> R) (F : R -> R).
Definition tz : list Z := map (fun n => to_Z (hp * tQ n)) (seq 0 STEPS).
Definition lz : list Z := map (fun n => to_Z (minus_ln n)) (seq 0 (S STEPS)).
Definition az : list Z := map to_Z (a0 :: A1).
Definition bz : list Z := map to_Z (b0 :: B1).
Definition cA (n : nat) : Q := nth n (a0 :: A1) 0%Q.
Definition cB (n : nat) : Q := nth n (b0 :: B1) 0%Q.
Hypothesis l2_lam : l2 = lam.
Hypothesis hp_pi : hp = half_pi.
Hypothesis checked1 : check_both (fz cA pQ qQ l2) (gz cB pQ) l2 = true.
Hypothesis checked2 : check_reg (Hz az bz tz lz) = true.
Hypothesis pQ_ok : forall n, Q2R (pQ n) = p n.
Hypothesis qQ_ok : forall n, Q2R (qQ n) = q n.
Hypothesis tQ_ok : forall n, Q2R (tQ n) = t n.
Hypothesis p_abs : forall n, Rabs (p n) <= 1 / 2.
Hypothesis q_abs : forall n, Rabs (q n) <= 3.
Hypothesis t_abs : forall n, Rabs (t n) <= 1.
Hypothesis A_len : length A1 = 7%nat.
Hypothesis B_len : length B1 = 7%nat.
Hypothesis B_abs : forall y, In y (b0 :: B1) -> Rabs (Q2R y) <= 1.
Hypothesis A0_near : Rabs (A0 - Q2R a0) <= / 2 ^ 60.
Hypothesis A0_exact : A0 = 4 * ln 2 * p 0%nat + q 0%nat.
Hypothesis B0_exact : Q2R b0 = p 0%nat.
Hypothesis F_log : forall x, 0 < x < 1 -> F x = (4 * ln 2 - ln x) * PSeries p x + PSeries q x.
Hypothesis F_reg : forall m, 0 <= m < 1 -> F (1 - m) = PI / 2 * PSeries t m.
Definition approx (x : R) : R := A0 + x * qeval A1 x - ln x * (Q2R b0 + x * qeval B1 x).

Lemma near_zero x : 0 < x < 1 / 2 -> Rabs (approx x - F x) <= 3 / 10 ^ 13.
Proof.
  intros Hx. pose proof (log_part cA cB pQ qQ l2 l2_lam checked1 x Hx) as L. cbv zeta in L.
  rewrite (fpartial_ext (fun n => Q2R (f1 cA pQ qQ l2 n)) (fun n => 1 * Q2R (nth n A1 0%Q) + (-1) * (4 * Q2R l2 * p (S n) + 1 * q (S n)))) in L.
  2:{ intros n. unfold f1, cA. cbn [nth]. rewrite !Q2R_minus, !Q2R_mult, pQ_ok, qQ_ok. replace (Q2R (4 # 1)) with 4 by (unfold Q2R; cbn; field). ring. }
  rewrite (fpartial_ext (fun n => Q2R (g1 cB pQ n)) (fun n => 1 * Q2R (nth n B1 0%Q) + (-1) * p (S n))) in L.
  2:{ intros n. unfold g1, cB. cbn [nth]. rewrite !Q2R_minus, pQ_ok. ring. }
  rewrite (fpartial_lin (fun n => Q2R (nth n A1 0%Q)) (fun n => 4 * Q2R l2 * p (S n) + 1 * q (S n))), (fpartial_lin (fun n => p (S n)) (fun n => q (S n))), (fpartial_lin (fun n => Q2R (nth n B1 0%Q)) (fun n => p (S n))) in L.
  rewrite !qeval_nth in L by (rewrite ?A_len, ?B_len; unfold STEPS; lia).
  pose proof (ps_tail p (1 / 2) x (S STEPS) p_abs ltac:(lra)) as TP. pose proof (ps_tail q 3 x (S STEPS) q_abs ltac:(lra)) as TQ. rewrite !partial_fpartial, !fpartial_cons in TP, TQ.
  pose proof (fpartial_abs (fun n => p (S n)) (1 / 2) STEPS x (fun n => p_abs (S n)) ltac:(lra)) as PB.
  rewrite F_log by lra. unfold approx. rewrite A0_exact, B0_exact. pose proof lam_ok as La. rewrite <- l2_lam in La.
  set (P1 := fpartial (fun n => p (S n)) STEPS x) in *. set (Q1 := fpartial (fun n => q (S n)) STEPS x) in *. set (P := PSeries p x) in *. set (Qv := PSeries q x) in *. set (a := qeval A1 x) in *. set (b := qeval B1 x) in *. set (w := Q2R l2) in *. destruct (ln_x_le x ltac:(lra)) as [L0 L1]. set (N := ln x) in *. set (p0 := p 0%nat) in *. set (q0 := q 0%nat) in *.
  assert (XS : x ^ S STEPS / (1 - x) <= x * / 2 ^ 59).
  { cbn [pow]. replace (x * x ^ STEPS / (1 - x)) with (x * (x ^ STEPS / (1 - x))) by (unfold Rdiv; ring). apply Rmult_le_compat_l; [lra|]. apply Rle_trans with ((1 / 2) ^ 60 * 2); [|lra]. apply Rmult_le_compat; [apply pow_le; lra|left; apply Rinv_0_lt_compat; lra|apply pow_incr; lra|]. replace 2 with (/ (1 / 2)) by field. apply Rinv_le_contravar; lra. }
  set (X := x ^ S STEPS / (1 - x)) in *. replace (1 / 2 * x ^ S STEPS / (1 - x)) with (1 / 2 * X) in TP by (unfold X, Rdiv; ring). replace (3 * x ^ S STEPS / (1 - x)) with (3 * X) in TQ by (unfold X, Rdiv; ring). clearbody X P1 Q1 P Qv a b w N p0 q0. clear F_log F_reg A0_near A0_exact B0_exact checked1 checked2.
  assert (LN : ln 2 <= 1) by (rewrite <- (ln_exp 1); apply ln_le; [lra|]; pose proof (exp_ineq1_le 1); lra). assert (LP : 0 <= ln 2) by (rewrite <- ln_1; apply ln_le; lra). set (l := ln 2) in *. clearbody l.
  replace (4 * l * p0 + q0 + x * a - N * (p0 + x * b) - ((4 * l - N) * P + Qv)) with
    (x * (1 * a + -1 * (4 * w * P1 + 1 * Q1) - N * (1 * b + -1 * P1)) + (- (4 * (l - w) * (x * P1)) + (- ((4 * l + - N) * (P - (p0 + x * P1))) + - (Qv - (q0 + x * Q1))))) by ring.
  assert (Y1 : Rabs (x * (1 * a + -1 * (4 * w * P1 + 1 * Q1) - N * (1 * b + -1 * P1))) <= 29 / 10 ^ 14) by (rewrite Rabs_mult, (Rabs_pos_eq x) by lra; exact L).
  assert (Y2 : Rabs (4 * (l - w) * (x * P1)) <= 4 * / 2 ^ 68). { rewrite !Rabs_mult, (Rabs_pos_eq 4), (Rabs_pos_eq x) by lra. apply Rle_trans with (4 * / 2 ^ 68 * 1); [|lra]. apply Rmult_le_compat; [apply Rmult_le_pos; [lra|apply Rabs_pos]|apply Rmult_le_pos; [lra|apply Rabs_pos]|lra|]. apply Rle_trans with (1 * 1); [|lra]. apply Rmult_le_compat; [lra|apply Rabs_pos|lra|lra]. }
  assert (Y3 : Rabs ((4 * l + - N) * (P - (p0 + x * P1))) <= 5 * / 2 ^ 59). { rewrite Rabs_mult, (Rabs_pos_eq (4 * l + - N)) by lra. apply Rle_trans with ((4 * l + - N) * (x * / 2 ^ 59)); [apply Rmult_le_compat_l; lra|]. replace ((4 * l + - N) * (x * / 2 ^ 59)) with ((4 * (l * x) + x * - N) * / 2 ^ 59) by ring. apply Rmult_le_compat_r; [lra|]. assert (l * x <= 1 * 1) by (apply Rmult_le_compat; lra). lra. }
  assert (Y4 : Rabs (Qv - (q0 + x * Q1)) <= 3 * / 2 ^ 59). { eapply Rle_trans; [exact TQ|]. apply Rmult_le_compat_l; [lra|]. eapply Rle_trans; [exact XS|]. apply Rle_trans with (1 * / 2 ^ 59); [apply Rmult_le_compat_r; lra|lra]. }
  eapply Rle_trans; [eapply Rle_trans; [apply Rabs_triang|apply Rplus_le_compat_l; eapply Rle_trans; [apply Rabs_triang|apply Rplus_le_compat_l, Rabs_triang]]|]. rewrite !Rabs_Ropp. lra.
Qed.

Lemma near_one m : 0 <= m <= 1 / 2 -> Rabs (approx (1 - m) - F (1 - m)) <= 3 / 10 ^ 13.
Proof.
  intros Hm. pose proof (regular_cells _ m checked2 Hm) as C. pose proof (Hz_ok az bz tz lz m Hm) as HH. rewrite F_reg by lra. unfold approx.
  assert (Rx : Rabs (1 - m) <= 1) by (apply Rabs_le; lra).
  pose proof (qeval_rounded (a0 :: A1) (1 - m) Rx) as RA. pose proof (qeval_rounded (b0 :: B1) (1 - m) Rx) as RB. replace (INR (length (a0 :: A1))) with 8 in RA by (cbn [length]; rewrite A_len; cbn; ring). replace (INR (length (b0 :: B1))) with 8 in RB by (cbn [length]; rewrite B_len; cbn; ring).
  pose proof (rounded_ok (fun n => hp * tQ n)%Q STEPS 0 m Hm) as RT. pose proof (rounded_ok minus_ln (S STEPS) 0 m Hm) as RL. cbn [Nat.add] in RT, RL. rewrite minus_ln_ok in RL.
  rewrite (fpartial_ext (fun n => Q2R (hp * tQ n)) (fun n => Q2R hp * t n + 0 * t n)) in RT by (intros n; rewrite Q2R_mult, tQ_ok; ring). rewrite fpartial_lin in RT.
  pose proof (qeval_abs (b0 :: B1) (1 - m) 1 B_abs Rx) as BA. replace (INR (length (b0 :: B1))) with 8 in BA by (cbn [length]; rewrite B_len; cbn; ring).
  replace (1 * 8) with 8 in BA by ring. rewrite S_pow in RA, RB, RT, RL. change (map to_Z (a0 :: A1)) with az in RA. change (map to_Z (b0 :: B1)) with bz in RB. change (map (fun n => to_Z (hp * tQ n)) (seq 0 STEPS)) with tz in RT. change (map (fun n => to_Z (minus_ln n)) (seq 0 (S STEPS))) with lz in RL.
  pose proof (ln_sum_ok STEPS (- m) ltac:(rewrite Rabs_Ropp, Rabs_pos_eq; lra)) as LL. rewrite Rabs_Ropp, (Rabs_pos_eq m) in LL by lra. replace (1 + - m) with (1 - m) in LL by ring.
  assert (XS : m ^ S STEPS / (1 - m) <= / 2 ^ 60). { apply Rle_trans with ((1 / 2) ^ 61 * 2); [|lra]. apply Rmult_le_compat; [apply pow_le; lra|left; apply Rinv_0_lt_compat; lra|apply pow_incr; lra|]. replace 2 with (/ (1 / 2)) by field. apply Rinv_le_contravar; lra. }
  assert (XT : m ^ STEPS / (1 - m) <= / 2 ^ 59). { apply Rle_trans with ((1 / 2) ^ 60 * 2); [|lra]. apply Rmult_le_compat; [apply pow_le; lra|left; apply Rinv_0_lt_compat; lra|apply pow_incr; lra|]. replace 2 with (/ (1 / 2)) by field. apply Rinv_le_contravar; lra. }
  pose proof (ps_tail t 1 m STEPS t_abs ltac:(lra)) as TT. rewrite partial_fpartial in TT. pose proof (ps_abs t 1 m t_abs ltac:(lra)) as TA. pose proof (fpartial_abs t 1 STEPS m t_abs Hm) as TB. replace (2 * 1) with 2 in TB by ring.
  pose proof half_pi_ok as PI2. rewrite <- hp_pi in PI2. replace (1 * m ^ STEPS / (1 - m)) with (m ^ STEPS / (1 - m)) in TT by (unfold Rdiv; ring).
  assert (LB : Rabs (- ln (1 - m)) <= 1). { assert (ln (1 - m) <= 0) by (rewrite <- ln_1; apply ln_le; lra). rewrite Rabs_pos_eq by lra. rewrite <- ln_Rinv by lra. apply Rle_trans with (ln 2). - apply ln_le; [apply Rinv_0_lt_compat; lra|]. replace 2 with (/ (1 / 2)) by field. apply Rinv_le_contravar; lra. - rewrite <- (ln_exp 1); apply ln_le; [lra|]; pose proof (exp_ineq1_le 1); lra. }
  replace (A0 + (1 - m) * qeval A1 (1 - m) - ln (1 - m) * (Q2R b0 + (1 - m) * qeval B1 (1 - m)) - PI / 2 * PSeries t m) with (A0 + (1 - m) * qeval A1 (1 - m) + - ln (1 - m) * qeval (b0 :: B1) (1 - m) - PI / 2 * PSeries t m) by (cbn [qeval]; ring).
  replace (A0 + (1 - m) * qeval A1 (1 - m)) with ((A0 - Q2R a0) + qeval (a0 :: A1) (1 - m)) by (cbn [qeval]; ring).
  set (av := qeval (a0 :: A1) (1 - m)) in *. set (bv := qeval (b0 :: B1) (1 - m)) in *. set (s := - ln_sum (S STEPS) (- m)) in *. set (L := - ln (1 - m)) in *. set (T := fpartial t STEPS m) in *. set (Tv := PSeries t m) in *. set (h := Q2R hp) in *. set (e0 := A0 - Q2R a0) in *. set (P := PI / 2) in *.
  assert (LS : Rabs (L - s) <= / 2 ^ 60). { unfold L, s. replace (- ln (1 - m) - - ln_sum (S STEPS) (- m)) with (- (ln (1 - m) - ln_sum (S STEPS) (- m))) by ring. rewrite Rabs_Ropp. eapply Rle_trans; [exact LL|exact XS]. }
  assert (SB : Rabs s <= 2). { replace s with (L - (L - s)) by ring. eapply Rle_trans; [apply Rabs_triang|]. rewrite Rabs_Ropp. lra. }
  assert (TM : Rabs (Tv - T) <= / 2 ^ 59) by (eapply Rle_trans; [exact TT|exact XT]).
  assert (PB : Rabs P <= 2) by (unfold P; pose proof PI_4; pose proof PI_RGT_0; rewrite Rabs_pos_eq; lra).
  replace (h * T + 0 * T) with (h * T) in RT by ring.
  pose proof (regular_rounding _ _ _ _ _ _ _ _ _ RA RB RT RL BA SB HH) as RR.
  set (y := peval (Hz az bz tz lz) m) in *. clearbody y av bv s L T Tv h e0 P. clear HH LL XS TT XT RA RB RT RL F_log F_reg checked1 checked2.
  assert (Main : Rabs (av + s * bv - h * T) <= 29 / 10 ^ 14).
  { set (z := av + s * bv - h * T) in *. clearbody z. assert (K0 : 0 < 2 ^ 64) by (apply pow_lt; lra). set (K := 2 ^ 64) in *. clearbody K. apply (Rmult_le_reg_r K); [exact K0|]. rewrite <- (Rabs_pos_eq K) at 1 by lra. rewrite <- Rabs_mult. replace (z * K) with (y + (z * K - y)) by ring. eapply Rle_trans; [apply Rabs_triang|]. replace (29 / 10 ^ 14 * K) with (29 * K / 10 ^ 14) by (unfold Rdiv; ring). lra. }
  replace (e0 + av + L * bv - P * Tv) with ((av + s * bv - h * T) + (e0 + ((L - s) * bv + (- ((P - h) * T) + - (P * (Tv - T)))))) by ring.
  assert (Y1 : Rabs ((L - s) * bv) <= / 2 ^ 60 * 8) by (rewrite Rabs_mult; apply Rmult_le_compat; try apply Rabs_pos; assumption).
  assert (Y2 : Rabs ((P - h) * T) <= / 2 ^ 60 * 2) by (rewrite Rabs_mult; apply Rmult_le_compat; try apply Rabs_pos; assumption).
  assert (Y3 : Rabs (P * (Tv - T)) <= 2 * / 2 ^ 59) by (rewrite Rabs_mult; apply Rmult_le_compat; try apply Rabs_pos; assumption).
  eapply Rle_trans; [eapply Rle_trans; [apply Rabs_triang|apply Rplus_le_compat_l; eapply Rle_trans; [apply Rabs_triang|apply Rplus_le_compat_l; eapply Rle_trans; [apply Rabs_triang|apply Rplus_le_compat_l, Rabs_triang]]]|]. rewrite !Rabs_Ropp. lra.
Qed.

Theorem approx_error x : 0 < x <= 1 -> Rabs (approx x - F x) <= 3 / 10 ^ 13.
Proof.
  intros Hx. destruct (Rlt_le_dec x (1 / 2)) as [H|H]; [apply near_zero; lra|]. replace x with (1 - (1 - x)) by ring. apply near_one. lra.
Qed.
End Whole.
