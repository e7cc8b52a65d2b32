(** The approximations of backend/elliptic.c against the complete elliptic integrals. *)
From Coq Require Import Reals Lra Lia Psatz List ZArith QArith Qreals Qround.
From Coquelicot Require Import Coquelicot.
From Verif Require Import Base GeomModel FieldModel PolyBound EllipticSeries EllipticExpand EllipticLogSeries EllipticNum EllipticCert EllipticWhole EllipticCheckK EllipticCheckE EllipticSpec.
Import ListNotations.
Local Open Scope R_scope.

Lemma chebyshev_qeval (a1 a2 a3 a4 a5 a6 a7 b0 b1 b2 b3 b4 b5 b6 b7 : Q) (A0 : R) x : 0 < x ->
  chebyshev [A0; Q2R a1; Q2R a2; Q2R a3; Q2R a4; Q2R a5; Q2R a6; Q2R a7] [Q2R b0; Q2R b1; Q2R b2; Q2R b3; Q2R b4; Q2R b5; Q2R b6; Q2R b7] x =
  approx b0 [a1; a2; a3; a4; a5; a6; a7] [b1; b2; b3; b4; b5; b6; b7] A0 x.
Proof.
  intros Hx. unfold chebyshev, approx. rewrite (ln_div 1 x), ln_1 by lra. cbv beta iota zeta delta [Rsum map combine arange seq fst snd qeval pow]. ring.
Qed.

Theorem K_error x : 0 < x <= 1 -> Rabs (ellipkm1 x - elliptic_K (1 - x)) <= 3 / 10 ^ 13.
Proof.
  intros Hx. assert (E : ellipkm1 x = approx (1 # 2) AK BK (ln 4) x).
  { unfold AK, BK. rewrite <- chebyshev_qeval by lra. unfold ellipkm1. f_equal; repeat f_equal; unfold Q2R; cbn; lra. }
  rewrite E. assert (L4 : ln 4 = 2 * ln 2) by (replace 4 with (2 * 2) by ring; rewrite ln_mult by lra; ring).
  apply (approx_error ((2 # 1) * lam)%Q (1 # 2) AK BK pcQ qcQ tcQ lam half_pi (ln 4) pc qc (fun n => 2 * pc n) (fun x => elliptic_K (1 - x)) eq_refl eq_refl K_check_log K_check_reg pcQ_ok qcQ_ok).
  all: try reflexivity.
  - intros n. unfold tcQ. rewrite Q2R_mult, pcQ_ok. unfold Q2R; cbn. field.
  - exact pc_abs.
  - intros n. pose proof (qc_abs n). lra.
  - intros n. rewrite Rabs_mult, (Rabs_pos_eq 2) by lra. pose proof (pc_abs n). lra.
  - unfold BK. intros y Hy. cbn [In] in Hy. repeat (destruct Hy as [<-|Hy]; [unfold Q2R; cbn; rewrite Rabs_pos_eq; lra|]). destruct Hy.
  - rewrite Q2R_mult, L4. pose proof lam_ok as A. replace (Q2R (2 # 1)) with 2 by (unfold Q2R; cbn; field). set (w := Q2R lam) in *. clearbody w. replace (2 * ln 2 - 2 * w) with (2 * (ln 2 - w)) by ring. rewrite Rabs_mult, (Rabs_pos_eq 2) by lra. lra.
  - rewrite L4. unfold qc. cbn [pc hc]. lra.
  - intros y Hy. apply K_log_series, Hy.
  - intros m Hm. cbn beta. replace (1 - (1 - m)) with m by ring. rewrite K_series by exact Hm. f_equal. rewrite <- PSeries_scal. apply PSeries_ext. intros n. reflexivity.
  - exact Hx.
Qed.
Theorem E_error x : 0 < x <= 1 -> Rabs (ellipem1 x - elliptic_E (1 - x)) <= 3 / 10 ^ 13.
Proof.
  intros Hx. assert (E : ellipem1 x = approx 0 AE BE 1 x).
  { unfold AE, BE. rewrite <- chebyshev_qeval by lra. unfold ellipem1. f_equal; repeat f_equal; unfold Q2R; cbn; lra. }
  rewrite E.
  apply (approx_error 1 0 AE BE ucQ vcQ ecQ lam half_pi 1 uc vc ec (fun x => elliptic_E (1 - x)) eq_refl eq_refl E_check_log E_check_reg ucQ_ok vcQ_ok ecQ_ok uc_abs vc_abs ec_abs).
  all: try reflexivity.
  - unfold BE. intros y Hy. cbn [In] in Hy. repeat (destruct Hy as [<-|Hy]; [unfold Q2R; cbn; rewrite Rabs_pos_eq; lra|]). destruct Hy.
  - unfold Q2R; cbn. replace (1 - 1 * / 1) with 0 by lra. rewrite Rabs_R0. lra.
  - cbn [uc vc]. lra.
  - unfold Q2R; cbn. lra.
  - intros y Hy. apply E_log_series, Hy.
  - intros m Hm. cbn beta. replace (1 - (1 - m)) with m by ring. apply E_series, Hm.
  - exact Hx.
Qed.
