(** Accuracy of the approximations of the elliptic integrals: series with rational coefficients, and the computation
    that bounds the difference. *)
From Coq Require Import Reals Lra Lia Psatz List ZArith QArith Qreals Qround.
From Coquelicot Require Import Coquelicot.
From Verif Require Import PolyBound EllipticSeries.
Import ListNotations.
Local Open Scope R_scope.

(** ** The coefficients as rational numbers *)
Definition ratioQ (k : nat) : Q := Qmake (2 * Z.of_nat k + 1) (2 * Pos.of_succ_nat k).
Fixpoint pcQ (n : nat) : Q := match n with O => 1 # 2 | S k => Qred (pcQ k * (ratioQ k * ratioQ k)) end.
Fixpoint hcQ (n : nat) : Q := match n with O => 0 | S k => Qred (hcQ k + Qmake 1 (Pos.of_succ_nat k * Pos.of_succ_nat (2 * k))) end.
Definition ucQ (n : nat) : Q := match n with O => 0 | S k => Qred (pcQ k * ratioQ k) end.
Definition qcQ (n : nat) : Q := Qred (- (2 # 1) * (pcQ n * hcQ n)).
Definition vcQ (n : nat) : Q := match n with O => 1 | S k => Qred (pcQ k * (- (2 # 1) * (hcQ k * ratioQ k) - Qmake 1 (2 * (Pos.of_succ_nat k * Pos.of_succ_nat k)))) end.
Definition ecQ (n : nat) : Q := match n with O => 1 | S k => Qred (- (2 # 1) * (pcQ (S k) * Qmake 1 (Pos.of_succ_nat (2 * k)))) end.

Lemma Q2R_red q : Q2R (Qred q) = Q2R q. Proof. apply Qeq_eqR, Qred_correct. Qed.
Lemma succ_IZR k : IZR (Zpos (Pos.of_succ_nat k)) = INR k + 1.
Proof. rewrite <- S_INR, INR_IZR_INZ. reflexivity. Qed.
Lemma ratioQ_ok k : Q2R (ratioQ k) = (2 * INR k + 1) / (2 * INR k + 2).
Proof. unfold ratioQ, Q2R. cbn [Qnum Qden]. rewrite plus_IZR, mult_IZR, <- INR_IZR_INZ, Pos2Z.inj_mul, mult_IZR, succ_IZR. unfold Rdiv. f_equal. f_equal. ring. Qed.
Lemma pcQ_ok n : Q2R (pcQ n) = pc n.
Proof. induction n as [|n IH]; [unfold Q2R; cbn; field|]. cbn [pcQ pc]. rewrite Q2R_red, !Q2R_mult, IH, ratioQ_ok. ring. Qed.
Lemma hcQ_ok n : Q2R (hcQ n) = hc n.
Proof.
  induction n as [|n IH]; [unfold Q2R; cbn; field|]. cbn [hcQ hc]. rewrite Q2R_red, Q2R_plus, IH. f_equal. unfold Q2R. cbn [Qnum Qden]. rewrite Pos2Z.inj_mul, mult_IZR, !succ_IZR, mult_INR. cbn [INR]. pose proof (pos_INR n). field. lra.
Qed.
Lemma ucQ_ok n : Q2R (ucQ n) = uc n.
Proof. destruct n as [|n]; [unfold Q2R; cbn; field|]. cbn [ucQ uc]. rewrite Q2R_red, Q2R_mult, pcQ_ok, ratioQ_ok. reflexivity. Qed.
Lemma Q2R_m2 : Q2R (- (2 # 1)) = -2. Proof. unfold Q2R. cbn. field. Qed.
Lemma qcQ_ok n : Q2R (qcQ n) = qc n.
Proof. unfold qcQ, qc. rewrite Q2R_red, !Q2R_mult, Q2R_m2, pcQ_ok, hcQ_ok. ring. Qed.
Lemma vcQ_ok n : Q2R (vcQ n) = vc n.
Proof.
  destruct n as [|n]; [unfold Q2R; cbn; field|]. cbn [vcQ vc]. rewrite Q2R_red, Q2R_mult, Q2R_minus, !Q2R_mult, Q2R_m2, pcQ_ok, hcQ_ok, ratioQ_ok. unfold Q2R. cbn [Qnum Qden]. rewrite !Pos2Z.inj_mul, !mult_IZR, !succ_IZR. pose proof (pos_INR n). field. lra.
Qed.
Lemma ecQ_ok n : Q2R (ecQ n) = ec n.
Proof.
  destruct n as [|n]; [unfold Q2R, ec; cbn; field|]. unfold ecQ, ec. rewrite Q2R_red, !Q2R_mult, Q2R_m2, pcQ_ok, S_INR. unfold Q2R. cbn [Qnum Qden]. rewrite succ_IZR, mult_INR. cbn [INR]. pose proof (pos_INR n). field. lra.
Qed.

(** ** The logarithm *)
(** [ln 17/16], [ln 19/17], ..., [ln 31/29], [ln 32/31] are the logarithms of [(d + 1)/(d - 1)] *)
Definition lnd : list Z := [33; 18; 20; 22; 24; 26; 28; 30; 63]%Z.
Definition lnpart (i : nat) : Z := fold_right (fun d s => (lnz d 10 + s)%Z) 0%Z (firstn (S i) lnd).
(** [ln (17/16)], [ln (19/16)], ..., [ln (32/16)], scaled by [2^80] *)
Definition lnparts : list Z := Eval vm_compute in map lnpart (seq 0 9).
Lemma lnparts_eq : lnparts = map lnpart (seq 0 9). Proof. vm_cast_no_check (eq_refl lnparts). Qed.
Definition lam : Q := Qmake (nth 8 lnparts 0%Z) (2 ^ 80).
Definition lnj (j : Z) : Q := Qmake (nth (Z.to_nat ((j - 17) / 2)) lnparts 0%Z) (2 ^ 80).
Lemma ln_step (a b : R) d : (18 <= d)%Z -> 0 < a -> 0 < b -> a * (IZR d - 1) = b * (IZR d + 1) -> Rabs (ln a - ln b - IZR (lnz d 10) / 2 ^ 80) <= / 2 ^ 76.
Proof.
  intros Hd Ha Hb E. pose proof (lnz_ok d Hd) as Q. assert (D : 18 <= IZR d) by (apply IZR_le; exact Hd). replace ((IZR d + 1) / (IZR d - 1)) with (a / b) in Q; [rewrite ln_div in Q by lra; exact Q|].
  apply (Rmult_eq_reg_r (b * (IZR d - 1))); [|apply Rgt_not_eq, Rmult_lt_0_compat; lra]. replace (a / b * (b * (IZR d - 1))) with (a * (IZR d - 1)) by (field; lra). rewrite E. field. lra.
Qed.
Lemma Q2R_80 z : Q2R (Qmake z (2 ^ 80)) = IZR z / 2 ^ 80.
Proof. unfold Q2R. cbn [Qnum Qden]. replace (IZR (Zpos (2 ^ 80))) with (2 ^ 80) by (rewrite (pow_IZR 2 80); reflexivity). reflexivity. Qed.
Lemma ln_parts i : (i < 9)%nat -> Rabs (ln (nth i [17; 19; 21; 23; 25; 27; 29; 31; 32] 0) - 4 * ln 2 - IZR (nth i lnparts 0%Z) / 2 ^ 80) <= / 2 ^ 68.
Proof.
  intros Hi. rewrite lnparts_eq. rewrite (nth_indep (map lnpart (seq 0 9)) 0%Z (lnpart 0)) by (rewrite map_length, seq_length; exact Hi). rewrite map_nth, seq_nth by exact Hi. cbn [Nat.add].
  pose proof (ln_step 17 16 33 ltac:(lia) ltac:(lra) ltac:(lra) ltac:(lra)) as C0.
  pose proof (ln_step 19 17 18 ltac:(lia) ltac:(lra) ltac:(lra) ltac:(lra)) as C1.
  pose proof (ln_step 21 19 20 ltac:(lia) ltac:(lra) ltac:(lra) ltac:(lra)) as C2.
  pose proof (ln_step 23 21 22 ltac:(lia) ltac:(lra) ltac:(lra) ltac:(lra)) as C3.
  pose proof (ln_step 25 23 24 ltac:(lia) ltac:(lra) ltac:(lra) ltac:(lra)) as C4.
  pose proof (ln_step 27 25 26 ltac:(lia) ltac:(lra) ltac:(lra) ltac:(lra)) as C5.
  pose proof (ln_step 29 27 28 ltac:(lia) ltac:(lra) ltac:(lra) ltac:(lra)) as C6.
  pose proof (ln_step 31 29 30 ltac:(lia) ltac:(lra) ltac:(lra) ltac:(lra)) as C7.
  pose proof (ln_step 32 31 63 ltac:(lia) ltac:(lra) ltac:(lra) ltac:(lra)) as C8.
  assert (L16 : ln 16 = 4 * ln 2) by (replace 16 with (2 * 2 * (2 * 2)) by ring; rewrite !ln_mult by lra; ring). rewrite L16 in C0.
  unfold lnpart, lnd.
  apply Rabs_le_between in C0. apply Rabs_le_between in C1. apply Rabs_le_between in C2. apply Rabs_le_between in C3. apply Rabs_le_between in C4. apply Rabs_le_between in C5. apply Rabs_le_between in C6. apply Rabs_le_between in C7. apply Rabs_le_between in C8.
  do 9 (destruct i as [|i]; [cbn [nth firstn fold_right]; rewrite ?plus_IZR; unfold Rdiv; rewrite ?Rmult_plus_distr_r; apply Rabs_le; unfold Rdiv in *; revert C0 C1 C2 C3 C4 C5 C6 C7 C8; generalize (lnz 33 10) (lnz 18 10) (lnz 20 10) (lnz 22 10) (lnz 24 10) (lnz 26 10) (lnz 28 10) (lnz 30 10) (lnz 63 10); intros; lra|]). lia.
Qed.
Lemma lam_ok : Rabs (ln 2 - Q2R lam) <= / 2 ^ 68.
Proof.
  pose proof (ln_parts 8 ltac:(lia)) as Q. unfold lam. rewrite Q2R_80. change (nth 8 [17; 19; 21; 23; 25; 27; 29; 31; 32] 0) with 32 in Q.
  replace (ln 32 - 4 * ln 2) with (ln 2) in Q; [exact Q|]. replace 32 with (2 * (2 * 2 * (2 * 2))) by ring. rewrite !ln_mult by lra. ring.
Qed.
Lemma lnj_ok j : (17 <= j <= 31)%Z -> Z.odd j = true -> Rabs (ln (IZR j) - 4 * ln 2 - Q2R (lnj j)) <= / 2 ^ 68.
Proof.
  intros H O. assert (C : (j = 17 \/ j = 19 \/ j = 21 \/ j = 23 \/ j = 25 \/ j = 27 \/ j = 29 \/ j = 31)%Z).
  { apply Z.odd_spec in O. destruct O as [k ->]. lia. }
  unfold lnj. rewrite Q2R_80.
  destruct C as [->|[->|[->|[->|[->|[->|[->| ->]]]]]]]; [exact (ln_parts 0 ltac:(lia))|exact (ln_parts 1 ltac:(lia))|exact (ln_parts 2 ltac:(lia))|exact (ln_parts 3 ltac:(lia))|exact (ln_parts 4 ltac:(lia))|exact (ln_parts 5 ltac:(lia))|exact (ln_parts 6 ltac:(lia))|exact (ln_parts 7 ltac:(lia))].
Qed.
(** [- ln (j/2^e (1 + v))], scaled by [2^48] *)
Definition T_bits : Z := 2 ^ 48.
Definition to_T (q : Q) : Z := Qfloor (q * inject_Z T_bits).
Lemma to_T_ok q : Rabs (Q2R q * IZR T_bits - IZR (to_T q)) <= 1.
Proof.
  unfold to_T. pose proof (Qfloor_le (q * inject_Z T_bits)) as A. pose proof (Qlt_floor (q * inject_Z T_bits)) as B. apply Qle_Rle in A. apply Qlt_Rlt in B. rewrite !Q2R_inject, Q2R_mult, Q2R_inject in *. rewrite plus_IZR in B. apply Rabs_le. lra.
Qed.
Definition log_tail : list Z := Eval vm_compute in map (fun n => to_T (- lnc (S n))) (seq 0 10).
Definition logz (l2 lj : Q) (e : Z) : list Z := to_T (inject_Z (e - 4) * l2 - lj) :: log_tail.
Lemma ln_sum_fpartial N u : ln_sum N u = fpartial (fun n => Q2R (lnc n)) N u.
Proof. induction N as [|N IH]; [reflexivity|]. cbn [ln_sum fpartial]. rewrite IH. reflexivity. Qed.
Lemma log_tail_ok u : Rabs u <= 1 / 17 -> Rabs (- (ln_sum 11 u) * IZR T_bits - u * peval log_tail u) <= 1 / 4.
Proof.
  intros Hu. assert (G : forall l u, Rabs u <= 1 / 17 -> Rabs (fold_right (fun q s => Q2R q + u * s) 0 l * IZR T_bits - peval (map to_T l) u) <= 17 / 16).
  { clear. intros l u Hu. induction l as [|q l IH]; cbn [fold_right map peval]; [rewrite Rmult_0_l, Rminus_0_r, Rabs_R0; lra|]. pose proof (to_T_ok q) as Z. set (s := fold_right _ _ l) in *. set (p := peval _ _) in *.
    replace ((Q2R q + u * s) * IZR T_bits - (IZR (to_T q) + u * p)) with ((Q2R q * IZR T_bits - IZR (to_T q)) + u * (s * IZR T_bits - p)) by ring. eapply Rle_trans; [apply Rabs_triang|]. rewrite Rabs_mult.
    assert (Rabs u * Rabs (s * IZR T_bits - p) <= 1 / 17 * (17 / 16)) by (apply Rmult_le_compat; try apply Rabs_pos; assumption). lra. }
  specialize (G (map (fun n => - lnc (S n))%Q (seq 0 10)) u Hu). rewrite map_map in G. change (map (fun n => to_T (- lnc (S n))) (seq 0 10)) with log_tail in G || (assert (E : log_tail = map (fun n => to_T (- lnc (S n))) (seq 0 10)) by (vm_compute; reflexivity); rewrite <- E in G).
  set (s := fold_right _ _ _) in *. assert (E : - ln_sum 11 u = u * s).
  { unfold s. cbn [seq map fold_right ln_sum]. rewrite !Q2R_opp. unfold lnc at 1. replace (Q2R 0) with 0 by (unfold Q2R; cbn; ring). ring. }
  rewrite E. replace (u * s * IZR T_bits - u * peval log_tail u) with (u * (s * IZR T_bits - peval log_tail u)) by ring. rewrite Rabs_mult.
  assert (Rabs u * Rabs (s * IZR T_bits - peval log_tail u) <= 1 / 17 * (17 / 16)) by (apply Rmult_le_compat; try apply Rabs_pos; assumption). lra.
Qed.
Lemma ln_two e : (0 <= e)%Z -> ln (two e) = IZR e * ln 2.
Proof.
  intros H. unfold two. rewrite <- (Z2Nat.id e H). generalize (Z.to_nat e). intros n. rewrite <- INR_IZR_INZ. induction n as [|n IH]; [cbn; rewrite ln_1; ring|].
  rewrite Nat2Z.inj_succ, Z.pow_succ_r, mult_IZR by lia. rewrite ln_mult; [|lra|apply IZR_lt, Z.pow_pos_nonneg; lia]. rewrite IH, S_INR. ring.
Qed.
Lemma logz_ok j e v : (17 <= j <= 31)%Z -> Z.odd j = true -> (4 <= e <= 30)%Z -> Rabs v <= / IZR j ->
  Rabs (- ln (IZR j / two e * (1 + v)) * IZR T_bits - peval (logz lam (lnj j) e) v) <= 64.
Proof.
  intros Hj Oj He Hv. pose proof (IZR_le _ _ (proj1 Hj)) as J. assert (Hv' : Rabs v <= 1 / 17). { eapply Rle_trans; [exact Hv|]. replace (1 / 17) with (/ 17) by field. apply Rinv_le_contravar; lra. }
  pose proof (two_pos e ltac:(lia)) as E. assert (V2 : 0 < 1 + v) by (pose proof (Rle_abs (- v)) as Q; rewrite Rabs_Ropp in Q; lra).
  rewrite ln_mult, ln_div, ln_two by (try apply Rdiv_lt_0_compat; lra || lia). cbn [logz peval].
  pose proof (to_T_ok (inject_Z (e - 4) * lam - lnj j)) as Z. rewrite Q2R_minus, Q2R_mult, Q2R_inject, minus_IZR in Z. pose proof (log_tail_ok v Hv') as L. pose proof lam_ok as A. pose proof (lnj_ok j Hj Oj) as B.
  pose proof (ln_sum_ok 10 v ltac:(lra)) as R. assert (TT : IZR T_bits = 2 ^ 48) by (unfold T_bits; rewrite (pow_IZR 2 48); reflexivity).
  assert (R' : Rabs v ^ 11 / (1 - Rabs v) <= (1 / 17) ^ 11 * (17 / 16)). { apply Rmult_le_compat; [apply pow_le, Rabs_pos|left; apply Rinv_0_lt_compat; lra|apply pow_incr; split; [apply Rabs_pos|lra]|]. replace (17 / 16) with (/ (16 / 17)) by field. apply Rinv_le_contravar; lra. }
  pose proof (IZR_le _ _ (proj1 He)) as E1. pose proof (IZR_le _ _ (proj2 He)) as E2.
  set (T := IZR T_bits) in *. set (z := IZR (to_T _)) in *. set (t := v * peval log_tail v) in *. set (s := ln_sum 11 v) in *. set (l := ln (1 + v)) in *. set (w := ln 2) in *. set (lj := ln (IZR j)) in *.
  replace (- (lj - IZR e * w + l) * T - (z + t)) with ((IZR e - 4) * (w - Q2R lam) * T - (lj - 4 * w - Q2R (lnj j)) * T + (((IZR e - 4) * Q2R lam - Q2R (lnj j)) * T - z) - (l - s) * T + (- s * T - t)) by ring.
  assert (T0 : 0 < T) by (rewrite TT; apply pow_lt; lra).
  assert (B1 : Rabs ((IZR e - 4) * (w - Q2R lam) * T) <= 26 * / 2 ^ 68 * 2 ^ 48). { rewrite !Rabs_mult, (Rabs_pos_eq T), (Rabs_pos_eq (IZR e - 4)), TT by lra. apply Rmult_le_compat_r; [lra|]. apply Rmult_le_compat; try apply Rabs_pos; lra. }
  assert (B2 : Rabs ((lj - 4 * w - Q2R (lnj j)) * T) <= / 2 ^ 68 * 2 ^ 48). { rewrite Rabs_mult, (Rabs_pos_eq T), TT by lra. apply Rmult_le_compat_r; lra. }
  assert (B3 : Rabs ((l - s) * T) <= (1 / 17) ^ 11 * (17 / 16) * 2 ^ 48). { rewrite Rabs_mult, (Rabs_pos_eq T), TT by lra. apply Rmult_le_compat_r; lra. }
  eapply Rle_trans; [eapply Rle_trans; [apply Rabs_triang|apply Rplus_le_compat_r; eapply Rle_trans; [apply Rabs_triang|apply Rplus_le_compat_r; eapply Rle_trans; [apply Rabs_triang|apply Rplus_le_compat_r, Rabs_triang]]]|]. rewrite !Rabs_Ropp. lra.
Qed.
