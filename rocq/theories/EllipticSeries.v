(** Power series of the complete elliptic integrals, around the parameters zero and one. *)
From Coq Require Import Reals Lra Lia Psatz.
From Coquelicot Require Import Coquelicot.
From Verif Require Import SeriesFacts EllipticSpec EllipticFacts.
Local Open Scope R_scope.

(** ** Power series with bounded coefficients *)
Definition bounded (a : nat -> R) : Prop := exists M, forall n, Rabs (a n) <= M.
Lemma bounded_radius a x : bounded a -> Rabs x < 1 -> Rbar_lt (Rabs x) (CV_radius a).
Proof.
  intros [M H] Hx. apply Rbar_lt_le_trans with (Finite 1); [exact Hx|]. apply (proj1 (CV_radius_bounded a)). exists M. intros n. rewrite pow1, Rmult_1_r. apply H.
Qed.
Lemma ps_sum a x : bounded a -> Rabs x < 1 -> is_pseries a x (PSeries a x).
Proof. intros B H. apply PSeries_correct, CV_radius_inside, bounded_radius; assumption. Qed.
Lemma ps_lin (a b : nat -> R) (x la lb c d : R) : is_pseries a x la -> is_pseries b x lb -> is_pseries (fun n => c * a n + d * b n) x (c * la + d * lb).
Proof. intros A B. exact (is_pseries_plus (V := R_NormedModule) (PS_scal c a) (PS_scal d b) x _ _ (is_pseries_scal (V := R_NormedModule) c a x la (Rmult_comm x c) A) (is_pseries_scal (V := R_NormedModule) d b x lb (Rmult_comm x d) B)). Qed.
Definition shifted (a : nat -> R) (n : nat) : R := match n with O => 0 | S k => a k end.
Lemma ps_shift (a : nat -> R) (x l : R) : is_pseries a x l -> is_pseries (shifted a) x (x * l).
Proof. intros A. apply (is_pseries_ext (PS_incr_1 a)); [intros [|n]; reflexivity|]. exact (is_pseries_incr_1 (V := R_NormedModule) a x l A). Qed.
Lemma ps_derive (a : nat -> R) (x : R) : bounded a -> Rabs x < 1 -> is_pseries (fun n => INR n * a n) x (x * PSeries (PS_derive a) x).
Proof.
  intros B H. apply (is_pseries_ext (shifted (PS_derive a))).
  - intros [|n]; [change ((0 : R) = 0 * a 0%nat); ring|reflexivity].
  - apply ps_shift, PSeries_correct, CV_radius_inside. rewrite CV_radius_derive. apply bounded_radius; assumption.
Qed.
Lemma ps_same (a b : nat -> R) (x la lb : R) : is_pseries a x la -> is_pseries b x lb -> (forall n, a n = b n) -> la = lb.
Proof. intros A B E. rewrite <- (is_pseries_unique a x la A), <- (is_pseries_unique b x lb B). apply PSeries_ext, E. Qed.
Lemma ps_is_derive a x : bounded a -> Rabs x < 1 -> is_derive (PSeries a) x (PSeries (PS_derive a) x).
Proof. intros B H. apply is_derive_PSeries, bounded_radius; assumption. Qed.
(** the rest of the series after [N] terms *)
Fixpoint partial (a : nat -> R) (N : nat) (x : R) : R := match N with O => 0 | S n => partial a n x + a n * x ^ n end.
Lemma ps_abs a M x : (forall n, Rabs (a n) <= M) -> 0 <= x < 1 -> Rabs (PSeries a x) <= M / (1 - x).
Proof.
  intros B H. assert (HM : 0 <= M) by (eapply Rle_trans; [apply Rabs_pos|apply (B 0%nat)]). assert (Q : Rabs x < 1) by (rewrite Rabs_pos_eq; lra).
  assert (E : ex_series (fun n => Rabs (a n * x ^ n))) by (apply CV_disk_inside, bounded_radius; [exists M; exact B|exact Q]).
  unfold PSeries. eapply Rle_trans; [apply Series_Rabs, E|]. replace (M / (1 - x)) with (Series (fun n => M * x ^ n)) by (rewrite Series_scal_l, Series_geom by exact Q; reflexivity).
  apply Series_le.
  - intros n. split; [apply Rabs_pos|]. rewrite Rabs_mult, (Rabs_pos_eq (x ^ n)) by (apply pow_le; lra). apply Rmult_le_compat_r; [apply pow_le; lra|apply B].
  - apply (ex_series_scal_l M (fun n => x ^ n)), ex_series_geom, Q.
Qed.
Lemma partial_sum a n x : partial a (S n) x = sum_f_R0 (fun k => a k * x ^ k) n.
Proof. induction n as [|n IH]; [cbn; ring|]. cbn [sum_f_R0]. rewrite <- IH. reflexivity. Qed.
Lemma ps_tail a M x N : (forall n, Rabs (a n) <= M) -> 0 <= x < 1 -> Rabs (PSeries a x - partial a N x) <= M * x ^ N / (1 - x).
Proof.
  intros B H. destruct N as [|n]; [cbn [partial]; rewrite Rminus_0_r, pow_O, Rmult_1_r; apply ps_abs; assumption|].
  assert (Q : Rabs x < 1) by (rewrite Rabs_pos_eq; lra). rewrite (PSeries_decr_n a n x) by (apply CV_radius_inside, bounded_radius; [exists M; exact B|exact Q]).
  rewrite partial_sum. match goal with |- Rabs (?s + ?t - ?s) <= _ => replace (s + t - s) with t by ring end. rewrite Rabs_mult, (Rabs_pos_eq (x ^ S n)) by (apply pow_le; lra).
  replace (M * x ^ S n / (1 - x)) with (x ^ S n * (M / (1 - x))) by (unfold Rdiv; ring). apply Rmult_le_compat_l; [apply pow_le; lra|]. apply ps_abs; [|exact H]. intros k. apply B.
Qed.

(** ** The coefficients *)
(** [pc n] is half the square of binomial(2n, n) / 4^n *)
Fixpoint pc (n : nat) : R := match n with O => 1 / 2 | S k => pc k * ((2 * INR k + 1) / (2 * INR k + 2)) ^ 2 end.
Definition uc (n : nat) : R := match n with O => 0 | S k => pc k * ((2 * INR k + 1) / (2 * INR k + 2)) end.
Fixpoint hc (n : nat) : R := match n with O => 0 | S k => hc k + 1 / ((INR k + 1) * (2 * INR k + 1)) end.
Definition qc (n : nat) : R := -2 * pc n * hc n.
Definition vc (n : nat) : R := match n with O => 1 | S k => pc k * (- hc k * (2 * INR k + 1) / (INR k + 1) - 1 / (2 * (INR k + 1) ^ 2)) end.
Definition ec (n : nat) : R := -2 * pc n / (2 * INR n - 1).

Lemma ratio_range k : 0 <= (2 * INR k + 1) / (2 * INR k + 2) <= 1.
Proof. pose proof (pos_INR k). split; [apply Rmult_le_pos; [lra|left; apply Rinv_0_lt_compat; lra]|]. apply (Rmult_le_reg_r (2 * INR k + 2)); [lra|]. unfold Rdiv. rewrite Rmult_assoc, Rinv_l by lra. lra. Qed.
Lemma pc_range n : 0 <= pc n <= 1 / 2.
Proof.
  induction n as [|n IH]; [cbn; split; lra|]. cbn [pc]. pose proof (ratio_range n) as Q. set (r := (2 * INR n + 1) / (2 * INR n + 2)) in *. clearbody r. assert (0 <= r ^ 2 <= 1) by (cbn; nra). nra.
Qed.
Lemma hc_pos n : 0 <= hc n.
Proof. induction n as [|n IH]; [cbn; lra|]. cbn [hc]. pose proof (pos_INR n) as P. apply Rplus_le_le_0_compat; [lra|]. apply Rmult_le_pos; [lra|left; apply Rinv_0_lt_compat; nra]. Qed.
Lemma hc_range n : hc (S n) <= 2 - 1 / (INR n + 1).
Proof.
  induction n as [|n IH]; [cbn; lra|]. cbn [hc] in *. pose proof (pos_INR n) as P. rewrite S_INR.
  cut (1 / ((INR n + 1 + 1) * (2 * (INR n + 1) + 1)) <= 1 / (INR n + 1) - 1 / (INR n + 1 + 1)); [lra|].
  replace (1 / (INR n + 1) - 1 / (INR n + 1 + 1)) with (1 / ((INR n + 1 + 1) * (INR n + 1))) by (field; lra).
  apply Rmult_le_compat_l; [lra|]. apply Rinv_le_contravar; nra.
Qed.
Lemma hc_2 n : 0 <= hc n <= 2.
Proof.
  split; [apply hc_pos|]. destruct n as [|n]; [cbn; lra|]. pose proof (hc_range n). pose proof (pos_INR n). assert (0 <= 1 / (INR n + 1)) by (apply Rmult_le_pos; [lra|left; apply Rinv_0_lt_compat; lra]). lra.
Qed.
Lemma pc_abs n : Rabs (pc n) <= 1 / 2. Proof. pose proof (pc_range n). rewrite Rabs_pos_eq; lra. Qed.
Lemma uc_abs n : Rabs (uc n) <= 1 / 2.
Proof. destruct n as [|n]; [cbn; rewrite Rabs_R0; lra|]. cbn [uc]. pose proof (pc_range n). pose proof (ratio_range n). rewrite Rabs_pos_eq; [nra|]. apply Rmult_le_pos; lra. Qed.
Lemma qc_abs n : Rabs (qc n) <= 2.
Proof. unfold qc. pose proof (pc_range n). pose proof (hc_2 n). rewrite !Rabs_mult, (Rabs_pos_eq (pc n)), (Rabs_pos_eq (hc n)) by lra. replace (Rabs (-2)) with 2 by (rewrite Rabs_left; lra). nra. Qed.
Lemma vc_abs n : Rabs (vc n) <= 3.
Proof.
  destruct n as [|n]; [cbn; rewrite Rabs_R1; lra|]. cbn [vc]. pose proof (pc_range n) as P. pose proof (hc_2 n) as H. pose proof (ratio_range n) as Q. pose proof (pos_INR n) as N.
  replace (- hc n * (2 * INR n + 1) / (INR n + 1)) with (- (2 * hc n * ((2 * INR n + 1) / (2 * INR n + 2)))) by (field; lra).
  set (r := (2 * INR n + 1) / (2 * INR n + 2)) in *. clearbody r.
  assert (I : 0 <= 1 / (2 * (INR n + 1) ^ 2) <= 1 / 2).
  { split; [apply Rmult_le_pos; [lra|left; apply Rinv_0_lt_compat; nra]|]. apply Rmult_le_compat_l; [lra|]. apply Rinv_le_contravar; nra. }
  set (i := 1 / (2 * (INR n + 1) ^ 2)) in *. clearbody i. rewrite Rabs_mult, (Rabs_pos_eq (pc n)) by lra. assert (0 <= hc n * r <= 2) by nra.
  rewrite Rabs_left1 by nra. nra.
Qed.
Lemma ec_abs n : Rabs (ec n) <= 1.
Proof.
  unfold ec. pose proof (pc_range n) as P. destruct n as [|n]; [cbn [INR]; replace (-2 * pc 0 / (2 * 0 - 1)) with 1 by (cbn [pc]; field); rewrite Rabs_R1; lra|].
  set (p := pc (S n)) in *. clearbody p. rewrite S_INR. pose proof (pos_INR n). unfold Rdiv. rewrite !Rabs_mult, (Rabs_pos_eq p) by lra. replace (Rabs (-2)) with 2 by (rewrite Rabs_left; lra).
  assert (I : 0 < / (2 * (INR n + 1) - 1) <= 1) by (split; [apply Rinv_0_lt_compat; lra|]; rewrite <- Rinv_1; apply Rinv_le_contravar; lra). rewrite (Rabs_pos_eq (/ _)) by lra. nra.
Qed.
Lemma pc_bounded : bounded pc. Proof. exists (1 / 2). apply pc_abs. Qed.
Lemma uc_bounded : bounded uc. Proof. exists (1 / 2). apply uc_abs. Qed.
Lemma qc_bounded : bounded qc. Proof. exists 2. apply qc_abs. Qed.
Lemma vc_bounded : bounded vc. Proof. exists 3. apply vc_abs. Qed.
Lemma ec_bounded : bounded ec. Proof. exists 1. apply ec_abs. Qed.

Notation "'PS'' a" := (PSeries (PS_derive a)) (at level 9, a at level 9).
(** The differential equations of the series. *)
Ltac coefficient := unfold shifted, uc, vc, qc, ec; cbn [pc hc]; rewrite ?S_INR; cbn [INR].
Lemma P_ode x : Rabs x < 1 -> 2 * (1 - x) * (x * PS' pc x) = x * PSeries pc x - PSeries uc x.
Proof.
  intros H. pose proof (ps_derive pc x pc_bounded H) as D. pose proof (ps_sum pc x pc_bounded H) as P. pose proof (ps_sum uc x uc_bounded H) as U.
  set (d := x * PS' pc x) in *. replace (2 * (1 - x) * d) with (2 * d + (-2) * (x * d)) by ring. replace (x * PSeries pc x - PSeries uc x) with (1 * (x * PSeries pc x) + (-1) * PSeries uc x) by ring.
  apply (ps_same _ _ x _ _ (ps_lin _ _ x _ _ 2 (-2) D (ps_shift _ x _ D)) (ps_lin _ _ x _ _ 1 (-1) (ps_shift _ x _ P) U)).
  intros [|n]; coefficient; [ring|]. pose proof (pos_INR n). field. lra.
Qed.
Lemma U_ode x : Rabs x < 1 -> 2 * (1 - x) * (x * PS' uc x) = x * (PSeries pc x - PSeries uc x).
Proof.
  intros H. pose proof (ps_derive uc x uc_bounded H) as D. pose proof (ps_sum pc x pc_bounded H) as P. pose proof (ps_sum uc x uc_bounded H) as U.
  set (d := x * PS' uc x) in *. replace (2 * (1 - x) * d) with (2 * d + (-2) * (x * d)) by ring. replace (x * (PSeries pc x - PSeries uc x)) with (x * (1 * PSeries pc x + (-1) * PSeries uc x)) by ring.
  apply (ps_same _ _ x _ _ (ps_lin _ _ x _ _ 2 (-2) D (ps_shift _ x _ D)) (ps_shift _ x _ (ps_lin _ _ x _ _ 1 (-1) P U))).
  intros [|[|n]]; coefficient; [ring|field|]. pose proof (pos_INR n). field. lra.
Qed.
Lemma Q_ode x : Rabs x < 1 -> 2 * (1 - x) * (x * PS' qc x) - 2 * (1 - x) * PSeries pc x = x * PSeries qc x - PSeries vc x.
Proof.
  intros H. pose proof (ps_derive qc x qc_bounded H) as D. pose proof (ps_sum pc x pc_bounded H) as P. pose proof (ps_sum qc x qc_bounded H) as Q. pose proof (ps_sum vc x vc_bounded H) as V.
  pose proof (ps_lin _ _ x _ _ 1 (-1) D P) as W. set (d := x * PS' qc x) in *. set (w := 1 * d + (-1) * PSeries pc x) in *.
  replace (2 * (1 - x) * d - 2 * (1 - x) * PSeries pc x) with (2 * w + (-2) * (x * w)) by (unfold w; ring). replace (x * PSeries qc x - PSeries vc x) with (1 * (x * PSeries qc x) + (-1) * PSeries vc x) by ring.
  apply (ps_same _ _ x _ _ (ps_lin _ _ x _ _ 2 (-2) W (ps_shift _ x _ W)) (ps_lin _ _ x _ _ 1 (-1) (ps_shift _ x _ Q) V)).
  intros [|n]; coefficient; [field|]. pose proof (pos_INR n). field. lra.
Qed.
Lemma V_ode x : Rabs x < 1 -> 2 * (1 - x) * (x * PS' vc x) - 2 * (1 - x) * PSeries uc x = x * (PSeries qc x - PSeries vc x).
Proof.
  intros H. pose proof (ps_derive vc x vc_bounded H) as D. pose proof (ps_sum uc x uc_bounded H) as P. pose proof (ps_sum qc x qc_bounded H) as Q. pose proof (ps_sum vc x vc_bounded H) as V.
  pose proof (ps_lin _ _ x _ _ 1 (-1) D P) as W. set (d := x * PS' vc x) in *. set (w := 1 * d + (-1) * PSeries uc x) in *.
  replace (2 * (1 - x) * d - 2 * (1 - x) * PSeries uc x) with (2 * w + (-2) * (x * w)) by (unfold w; ring). replace (x * (PSeries qc x - PSeries vc x)) with (x * (1 * PSeries qc x + (-1) * PSeries vc x)) by ring.
  apply (ps_same _ _ x _ _ (ps_lin _ _ x _ _ 2 (-2) W (ps_shift _ x _ W)) (ps_shift _ x _ (ps_lin _ _ x _ _ 1 (-1) Q V))).
  intros [|[|n]]; coefficient; [ring|field|]. pose proof (pos_INR n). field. lra.
Qed.
Lemma E_ode x : Rabs x < 1 -> 2 * (x * PS' ec x) = PSeries ec x - 2 * PSeries pc x.
Proof.
  intros H. pose proof (ps_derive ec x ec_bounded H) as D. pose proof (ps_sum pc x pc_bounded H) as P. pose proof (ps_sum ec x ec_bounded H) as U.
  set (d := x * PS' ec x) in *. replace (2 * d) with (2 * d + 0 * d) by ring. replace (PSeries ec x - 2 * PSeries pc x) with (1 * PSeries ec x + (-2) * PSeries pc x) by ring.
  apply (ps_same _ _ x _ _ (ps_lin _ _ x _ _ 2 0 D D) (ps_lin _ _ x _ _ 1 (-2) U P)).
  intros [|n]; coefficient; [field|]. pose proof (pos_INR n). field. lra.
Qed.
Lemma K_ode x : Rabs x < 1 -> 2 * (1 - x) * (x * (2 * PS' pc x)) = PSeries ec x - (1 - x) * (2 * PSeries pc x).
Proof.
  intros H. pose proof (ps_derive pc x pc_bounded H) as D. pose proof (ps_sum pc x pc_bounded H) as P. pose proof (ps_sum ec x ec_bounded H) as U.
  set (d := x * PS' pc x) in *. replace (2 * (1 - x) * (x * (2 * PS' pc x))) with (4 * d + (-4) * (x * d)) by (unfold d; ring).
  replace (PSeries ec x - (1 - x) * (2 * PSeries pc x)) with (1 * (1 * PSeries ec x + (-2) * PSeries pc x) + 2 * (x * PSeries pc x)) by ring.
  apply (ps_same _ _ x _ _ (ps_lin _ _ x _ _ 4 (-4) D (ps_shift _ x _ D)) (ps_lin _ _ x _ _ 1 2 (ps_lin _ _ x _ _ 1 (-2) U P) (ps_shift _ x _ P))).
  intros [|n]; coefficient; [field|]. pose proof (pos_INR n). field. lra.
Qed.
