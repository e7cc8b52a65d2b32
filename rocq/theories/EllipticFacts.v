(** Identities of the complete elliptic integrals. *)
From Coq Require Import Reals Lra Lia Psatz.
From Coquelicot Require Import Coquelicot.
From Verif Require Import SeriesFacts EllipticSpec.
Local Open Scope R_scope.

Lemma sin_sqr_range t : 0 <= sin t ^ 2 <= 1.
Proof. pose proof (sin2_cos2 t) as H. unfold Rsqr in H. split; nra. Qed.
Lemma delta_pos m t : m < 1 -> 0 < 1 - m * sin t ^ 2.
Proof. intros H. pose proof (sin_sqr_range t). destruct (Rle_dec 0 m); nra. Qed.
Lemma delta_sqrt_pos m t : m < 1 -> 0 < sqrt (1 - m * sin t ^ 2).
Proof. intros H. apply sqrt_lt_R0, delta_pos, H. Qed.

Ltac dnorm m t := cbn [pow] in *; rewrite ?Rmult_1_r in *; change (1 + - (m * (sin t * sin t))) with (1 - m * (sin t * sin t)) in *.
Ltac conds := repeat split; try exact I; try (apply Rgt_not_eq; repeat apply Rmult_lt_0_compat); try lra.
Lemma K_continuous m t : m < 1 -> continuous (fun t => / sqrt (1 - m * sin t ^ 2)) t.
Proof. intros H. apply (ex_derive_continuous (V := R_NormedModule)). pose proof (delta_pos m t H). pose proof (delta_sqrt_pos m t H). auto_derive. dnorm m t. conds. Qed.
Lemma E_continuous m t : m < 1 -> continuous (fun t => sqrt (1 - m * sin t ^ 2)) t.
Proof. intros H. apply (ex_derive_continuous (V := R_NormedModule)). pose proof (delta_pos m t H). auto_derive. dnorm m t. conds. Qed.
Lemma cube_continuous m t : m < 1 -> continuous (fun t => / sqrt (1 - m * sin t ^ 2) ^ 3) t.
Proof.
  intros H. apply (ex_derive_continuous (V := R_NormedModule)). pose proof (delta_pos m t H). pose proof (delta_sqrt_pos m t H). auto_derive. dnorm m t. conds.
Qed.
Lemma cont_ex_RInt (f : R -> R) a b : (forall t, continuous f t) -> ex_RInt f a b.
Proof. intros H. apply (ex_RInt_continuous (V := R_CompleteNormedModule)). intros z _. apply H. Qed.
Lemma RInt_is (f : R -> R) a b : (forall t, continuous f t) -> is_RInt f a b (RInt f a b).
Proof. intros H. apply (RInt_correct (V := R_CompleteNormedModule)), cont_ex_RInt, H. Qed.

Ltac rint_gen := repeat match goal with |- context [@RInt ?V ?f ?a ?b] => let z := fresh "z" in pose (z := (@RInt V f a b : R)); change (@RInt V f a b) with z; clearbody z end; req.
Lemma RInt_const_R (c a b : R) : RInt (fun _ => c) a b = (b - a) * c.
Proof. rewrite RInt_const. reflexivity. Qed.
Lemma RInt_eq (f g : R -> R) a b : (forall x, f x = g x) -> RInt f a b = RInt g a b.
Proof. intros H. apply RInt_ext. intros x _. apply H. Qed.
(** Linearity in a form without [scal] and [plus]. *)
Lemma RInt_lin (f g : R -> R) (u v a b : R) : (forall t, continuous f t) -> (forall t, continuous g t) ->
  RInt (fun t => u * f t + v * g t) a b = u * RInt f a b + v * RInt g a b.
Proof.
  intros Hf Hg. apply is_RInt_unique. apply (is_RInt_plus (V := R_NormedModule) (fun t => u * f t) (fun t => v * g t)); apply (is_RInt_scal (V := R_NormedModule)); apply RInt_is; assumption.
Qed.
Lemma RInt_scale (f : R -> R) (u a b : R) : (forall t, continuous f t) -> RInt (fun t => u * f t) a b = u * RInt f a b.
Proof. intros Hf. apply is_RInt_unique. apply (is_RInt_scal (V := R_NormedModule)), RInt_is, Hf. Qed.
(** Affine change of variable. *)
Lemma RInt_affine (f : R -> R) (u v a b : R) : (forall t, continuous f t) ->
  RInt f (u * a + v) (u * b + v) = u * RInt (fun y => f (u * y + v)) a b.
Proof.
  intros Hf. rewrite <- (RInt_comp_lin f u v a b) by (apply cont_ex_RInt, Hf).
  rewrite (RInt_eq _ (fun y => u * f (u * y + v))) by reflexivity. apply RInt_scale.
  intros t. apply (continuous_comp (fun y => u * y + v) f); [|apply Hf]. apply (ex_derive_continuous (V := R_NormedModule)). auto_derive. exact I.
Qed.
Lemma K_zero : elliptic_K 0 = PI / 2.
Proof.
  unfold elliptic_K. rewrite (RInt_eq _ (fun _ => 1)); [rewrite RInt_const_R; ring|]. intros t. replace (1 - 0 * sin t ^ 2) with 1 by ring. rewrite sqrt_1. field.
Qed.
Lemma E_zero : elliptic_E 0 = PI / 2.
Proof.
  unfold elliptic_E. rewrite (RInt_eq _ (fun _ => 1)); [rewrite RInt_const_R; ring|]. intros t. replace (1 - 0 * sin t ^ 2) with 1 by ring. apply sqrt_1.
Qed.
Lemma K_pos m : m < 1 -> 0 < elliptic_K m.
Proof. intros H. pose proof PI_RGT_0. apply RInt_gt_0; [lra| |]. intros t _. apply Rinv_0_lt_compat, delta_sqrt_pos, H. intros t _. apply K_continuous, H. Qed.
Lemma E_pos m : m < 1 -> 0 < elliptic_E m.
Proof. intros H. pose proof PI_RGT_0. apply RInt_gt_0; [lra| |]. intros t _. apply delta_sqrt_pos, H. intros t _. apply E_continuous, H. Qed.

(** Reflection of the interval [0, pi/2]. *)
Lemma RInt_reflect (f : R -> R) : (forall t, continuous f t) -> RInt f 0 (PI / 2) = RInt (fun t => f (PI / 2 - t)) 0 (PI / 2).
Proof.
  intros Hf. pose proof (RInt_affine f (-1) (PI / 2) (PI / 2) 0 Hf) as H.
  replace (-1 * (PI / 2) + PI / 2) with 0 in H by ring. replace (-1 * 0 + PI / 2) with (PI / 2) in H by ring. rewrite H.
  rewrite <- (opp_RInt_swap (V := R_CompleteNormedModule) (fun y => f (-1 * y + PI / 2))).
  - change (-1 * - RInt (fun y : R => f (-1 * y + PI / 2)) 0 (PI / 2) = RInt (fun t : R => f (PI / 2 - t)) 0 (PI / 2)).
    rewrite (RInt_eq (fun y : R => f (-1 * y + PI / 2)) (fun t => f (PI / 2 - t))) by (intros t; f_equal; ring). ring.
  - apply cont_ex_RInt. intros t. apply (continuous_comp (fun y => -1 * y + PI / 2) f); [|apply Hf]. apply (ex_derive_continuous (V := R_NormedModule)). auto_derive. exact I.
Qed.
Lemma sin_complement t : sin (PI / 2 - t) = cos t.
Proof. apply sin_shift. Qed.
Lemma cos_sqr t : cos t ^ 2 = 1 - sin t ^ 2.
Proof. pose proof (sin2_cos2 t) as H. unfold Rsqr in H. lra. Qed.

(** The imaginary modulus transformation. *)
Lemma delta_transform m t : m < 1 -> 1 - m / (m - 1) * sin (PI / 2 - t) ^ 2 = (1 - m * sin t ^ 2) / (1 - m).
Proof. intros H. rewrite sin_complement, cos_sqr. field. lra. Qed.
Theorem K_transform m : m < 1 -> elliptic_K m = elliptic_K (m / (m - 1)) / sqrt (1 - m).
Proof.
  intros H. assert (S : 0 < sqrt (1 - m)) by (apply sqrt_lt_R0; lra). assert (M : m / (m - 1) < 1).
  { apply (Rmult_lt_reg_r (1 - m)); [lra|]. replace (m / (m - 1) * (1 - m)) with (- m) by (field; lra). lra. }
  unfold elliptic_K at 2. rewrite RInt_reflect by (intros t; apply K_continuous, M).
  rewrite (RInt_eq _ (fun t => sqrt (1 - m) * / sqrt (1 - m * sin t ^ 2))).
  - rewrite RInt_scale by (intros t; apply K_continuous, H). fold (elliptic_K m). req. field. lra.
  - intros t. rewrite delta_transform by exact H. pose proof (delta_sqrt_pos m t H). rewrite sqrt_div_alt by lra. req. field. lra.
Qed.
Theorem E_transform m : m < 1 -> elliptic_E m = elliptic_E (m / (m - 1)) * sqrt (1 - m).
Proof.
  intros H. assert (S : 0 < sqrt (1 - m)) by (apply sqrt_lt_R0; lra). assert (M : m / (m - 1) < 1).
  { apply (Rmult_lt_reg_r (1 - m)); [lra|]. replace (m / (m - 1) * (1 - m)) with (- m) by (field; lra). lra. }
  unfold elliptic_E at 2. rewrite RInt_reflect by (intros t; apply E_continuous, M).
  rewrite (RInt_eq _ (fun t => / sqrt (1 - m) * sqrt (1 - m * sin t ^ 2))).
  - rewrite RInt_scale by (intros t; apply E_continuous, H). fold (elliptic_E m). req. field. lra.
  - intros t. rewrite delta_transform by exact H. rewrite sqrt_div_alt by lra. req. field. lra.
Qed.

(** The integral of the third power. *)
Theorem cube_integral m : m < 1 -> RInt (fun t => / sqrt (1 - m * sin t ^ 2) ^ 3) 0 (PI / 2) = elliptic_E m / (1 - m).
Proof.
  intros H. pose (g := fun t => sin t * cos t / sqrt (1 - m * sin t ^ 2)).
  pose (dg := fun t => 1 * sqrt (1 - m * sin t ^ 2) + - (1 - m) * / sqrt (1 - m * sin t ^ 2) ^ 3).
  assert (D : forall t, is_derive (fun t => m * g t) t (dg t)).
  { intros t. pose proof (delta_pos m t H) as P. pose proof (delta_sqrt_pos m t H) as Q. unfold g, dg. auto_derive; dnorm m t; [conds|].
    set (w := sqrt (1 - m * (sin t * sin t))) in *. assert (W : w * w = 1 - m * (sin t * sin t)) by (apply sqrt_sqrt; lra).
    pose proof (cos_sqr t) as C. cbn [pow] in C. rewrite !Rmult_1_r in C. req. clearbody w. apply (Rmult_eq_reg_r (w * w * w)); [|nra].
    field_simplify; [|lra|lra]. clear Q. set (s := sin t) in *. set (c := cos t) in *.
    replace (c ^ 2) with (1 - s * s) by (rewrite <- C; ring). replace (w ^ 4) with ((w * w) * (w * w)) by ring. replace (w ^ 2) with (w * w) by ring. rewrite W. field. }
  assert (I : is_RInt dg 0 (PI / 2) (m * g (PI / 2) - m * g 0)).
  { apply (is_RInt_derive (V := R_CompleteNormedModule) (fun t => m * g t) dg); [intros t _; apply D|]. intros t _. unfold dg.
    apply (continuous_plus (V := R_NormedModule)); apply (continuous_scal_r (V := R_NormedModule)); [apply E_continuous, H|apply cube_continuous, H]. }
  replace (m * g (PI / 2) - m * g 0) with 0 in I by (unfold g; rewrite cos_PI2, sin_0; unfold Rdiv; ring).
  apply (is_RInt_unique (V := R_CompleteNormedModule)) in I. unfold dg in I. rewrite RInt_lin in I by (intros t; first [apply E_continuous, H|apply cube_continuous, H]). fold (elliptic_E m) in I.
  set (J := RInt (fun t => / sqrt (1 - m * sin t ^ 2) ^ 3) 0 (PI / 2) : R) in *. change (1 * elliptic_E m + - (1 - m) * J = 0) in I. change (J = elliptic_E m / (1 - m)).
  apply (Rmult_eq_reg_r (1 - m)); [|lra]. replace (elliptic_E m / (1 - m) * (1 - m)) with (elliptic_E m) by (field; lra). lra.
Qed.

(** Differentiation of K in its parameter. *)
Definition K_integrand' (u t : R) : R := / 2 * sin t ^ 2 * / sqrt (1 - u * sin t ^ 2) ^ 3.
Lemma K_integrand_derive u t : u < 1 -> is_derive (fun u => / sqrt (1 - u * sin t ^ 2)) u (K_integrand' u t).
Proof.
  intros H. pose proof (delta_pos u t H) as P. pose proof (delta_sqrt_pos u t H) as Q. unfold K_integrand'. auto_derive; dnorm u t; [conds|].
  change (1 + - (u * (sin t * sin t))) with (1 - u * (sin t * sin t)). set (w := sqrt (1 - u * (sin t * sin t))) in *. req. field. lra.
Qed.
Lemma K_integrand'_continuous u t : u < 1 -> continuity_2d_pt K_integrand' u t.
Proof.
  intros H. pose proof (delta_pos u t H) as P. pose proof (delta_sqrt_pos u t H) as Q. unfold K_integrand'.
  assert (S : continuity_2d_pt (fun _ v => sin v ^ 2) u t).
  { apply (continuity_1d_2d_pt_comp (fun x => sin x ^ 2) (fun _ v => v)); [|apply continuity_2d_pt_id2].
    apply continuity_pt_filterlim. apply (ex_derive_continuous (V := R_NormedModule)). auto_derive. exact I. }
  apply continuity_2d_pt_mult; [apply continuity_2d_pt_mult; [apply continuity_2d_pt_const|exact S]|].
  apply (continuity_1d_2d_pt_comp (fun x => / sqrt x ^ 3) (fun u v => 1 - u * sin v ^ 2)).
  - apply continuity_pt_filterlim. apply (ex_derive_continuous (V := R_NormedModule) (fun x => / sqrt x ^ 3)). auto_derive. cbn [pow] in *. conds.
  - apply continuity_2d_pt_minus; [apply continuity_2d_pt_const|]. apply continuity_2d_pt_mult; [apply continuity_2d_pt_id1|exact S].
Qed.
Lemma below_one m : m < 1 -> locally m (fun u => u < 1).
Proof. intros H. apply (open_lt 1 m H). Qed.
Theorem K_derive m : m < 1 -> is_derive elliptic_K m (RInt (K_integrand' m) 0 (PI / 2)).
Proof.
  intros H. assert (E : RInt (K_integrand' m) 0 (PI / 2) = RInt (fun t => Derive (fun u => / sqrt (1 - u * sin t ^ 2)) m) 0 (PI / 2)).
  { apply RInt_eq. intros t. symmetry. apply is_derive_unique, K_integrand_derive, H. }
  rewrite E. apply (is_derive_RInt_param (fun u t => / sqrt (1 - u * sin t ^ 2)) 0 (PI / 2) m).
  - apply (filter_imp (fun u => u < 1)); [|apply below_one, H]. intros u Hu t _. exists (K_integrand' u t). apply K_integrand_derive, Hu.
  - intros t _. apply (continuity_2d_pt_ext_loc K_integrand'); [|apply K_integrand'_continuous, H].
    exists (mkposreal (1 - m) ltac:(lra)). intros u v Hu _. cbn in Hu. symmetry. apply is_derive_unique, K_integrand_derive. apply Rabs_def2 in Hu. lra.
  - apply (filter_imp (fun u => u < 1)); [|apply below_one, H]. intros u Hu. apply cont_ex_RInt. intros t. apply K_continuous, Hu.
Qed.
Lemma K'_continuous m t : m < 1 -> continuous (K_integrand' m) t.
Proof.
  intros H. apply (ex_derive_continuous (V := R_NormedModule)). pose proof (delta_pos m t H). pose proof (delta_sqrt_pos m t H). unfold K_integrand'. auto_derive. dnorm m t. conds.
Qed.
Theorem K_derive_formula m : m < 1 -> m <> 0 -> is_derive elliptic_K m ((elliptic_E m / (1 - m) - elliptic_K m) / (2 * m)).
Proof.
  intros H N. eapply is_derive_eq; [apply K_derive, H|].
  rewrite (RInt_eq _ (fun t => / (2 * m) * / sqrt (1 - m * sin t ^ 2) ^ 3 + - / (2 * m) * / sqrt (1 - m * sin t ^ 2))).
  - rewrite RInt_lin by (intros t; first [apply K_continuous, H|apply cube_continuous, H]). rewrite cube_integral by exact H. fold (elliptic_K m). req. field. split; lra.
  - intros t. unfold K_integrand'. pose proof (delta_pos m t H) as P. pose proof (delta_sqrt_pos m t H) as Q. set (w := sqrt (1 - m * sin t ^ 2)) in *.
    assert (W : w ^ 2 = 1 - m * sin t ^ 2) by (unfold w; rewrite <- Rsqr_pow2, Rsqr_sqrt; lra).
    replace (sin t ^ 2) with ((1 - w ^ 2) / m) by (rewrite W; field; exact N). req. field. split; lra.
Qed.

(** ** Integrals over a full turn *)
Lemma continuous_affine (f : R -> R) (u v t : R) : (forall t, continuous f t) -> continuous (fun y => f (u * y + v)) t.
Proof. intros Hf. apply (continuous_comp (fun y => u * y + v) f); [|apply Hf]. apply (ex_derive_continuous (V := R_NormedModule)). auto_derive. exact I. Qed.
Lemma RInt_split (f : R -> R) a b c : (forall t, continuous f t) -> RInt f a c = RInt f a b + RInt f b c.
Proof. intros H. symmetry. apply (RInt_Chasles (V := R_CompleteNormedModule) f a b c); apply cont_ex_RInt, H. Qed.
Lemma RInt_swap (f : R -> R) a b : (forall t, continuous f t) -> RInt f b a = - RInt f a b.
Proof. intros H. pose proof (RInt_split f a b a H) as S. rewrite RInt_point in S. apply (Rplus_eq_reg_l (RInt f a b)). rewrite <- S. change (0 = RInt f a b + - RInt f a b). rint_gen. ring. Qed.
Lemma RInt_even (f : R -> R) a : (forall t, continuous f t) -> (forall t, f (- t) = f t) -> RInt f (- a) a = 2 * RInt f 0 a.
Proof.
  intros C Ev. rewrite (RInt_split f (- a) 0 a C). pose proof (RInt_affine f (-1) 0 a 0 C) as S.
  replace (-1 * a + 0) with (- a) in S by ring. replace (-1 * 0 + 0) with 0 in S by ring.
  rewrite S, (RInt_eq (fun y => f (-1 * y + 0)) f) by (intros t; rewrite <- (Ev t); f_equal; ring). rewrite (RInt_swap f 0 a C). rint_gen. ring.
Qed.
(** A full turn can start anywhere. *)
Theorem turn_shift (f : R -> R) (psi a : R) : (forall t, continuous f t) -> (forall x, f (x + 2 * PI) = f x) ->
  RInt (fun x => f (x - psi)) 0 (2 * PI) = RInt f a (a + 2 * PI).
Proof.
  intros C P.
  assert (A : RInt (fun x => f (x - psi)) 0 (2 * PI) = RInt f (- psi) (2 * PI - psi)).
  { pose proof (RInt_affine f 1 (- psi) 0 (2 * PI) C) as S. replace (1 * 0 + - psi) with (- psi) in S by ring. replace (1 * (2 * PI) + - psi) with (2 * PI - psi) in S by ring.
    rewrite S. rewrite (RInt_eq (fun y => f (1 * y + - psi)) (fun x => f (x - psi))) by (intros t; f_equal; ring). rint_gen. ring. }
  rewrite A. pose proof (RInt_affine f 1 (2 * PI) (- psi) a C) as S. replace (1 * - psi + 2 * PI) with (2 * PI - psi) in S by ring. replace (1 * a + 2 * PI) with (a + 2 * PI) in S by ring.
  rewrite (RInt_eq (fun y => f (1 * y + 2 * PI)) f) in S by (intros t; rewrite <- (P t); f_equal; ring).
  rewrite (RInt_split f (- psi) a (2 * PI - psi) C), (RInt_split f a (a + 2 * PI) (2 * PI - psi) C), (RInt_swap f (2 * PI - psi) (a + 2 * PI) C), S. rint_gen. ring.
Qed.
Lemma cos_turn x : cos (x + 2 * PI) = cos x.
Proof. rewrite cos_plus, cos_2PI, sin_2PI. ring. Qed.
Lemma sin_turn x : sin (x + 2 * PI) = sin x.
Proof. rewrite sin_plus, cos_2PI, sin_2PI. ring. Qed.
(** Averages of functions of the cosine over a full turn, starting from any angle. *)
Theorem full_turn (h : R -> R) (psi : R) : (forall t, continuous (fun x => h (cos x)) t) ->
  RInt (fun x => h (cos (x - psi))) 0 (2 * PI) = 4 * RInt (fun t => h (2 * sin t ^ 2 - 1)) 0 (PI / 2).
Proof.
  intros C. set (f := fun x => h (cos x)) in *.
  transitivity (RInt (fun x => f (x - psi)) 0 (2 * PI)); [reflexivity|]. rewrite (turn_shift f psi 0 C) by (intros x; unfold f; rewrite cos_turn; reflexivity).
  pose proof (RInt_affine f 2 PI (- (PI / 2)) (PI / 2) C) as S. replace (2 * - (PI / 2) + PI) with 0 in S by field. replace (2 * (PI / 2) + PI) with (0 + 2 * PI) in S by field.
  rewrite S. rewrite RInt_even.
  - rewrite (RInt_eq (fun y => f (2 * y + PI)) (fun t => h (2 * sin t ^ 2 - 1))); [rint_gen; ring|]. intros t. unfold f. f_equal. rewrite neg_cos, cos_2a_sin. ring.
  - intros t. apply continuous_affine, C.
  - intros t. unfold f. f_equal. rewrite !neg_cos, !cos_2a_sin, sin_neg. ring.
Qed.
Lemma RInt_odd (f : R -> R) a : (forall t, continuous f t) -> (forall t, f (- t) = - f t) -> RInt f (- a) a = 0.
Proof.
  intros C Od. rewrite (RInt_split f (- a) 0 a C). pose proof (RInt_affine f (-1) 0 a 0 C) as S.
  replace (-1 * a + 0) with (- a) in S by ring. replace (-1 * 0 + 0) with 0 in S by ring.
  rewrite S, (RInt_eq (fun y => f (-1 * y + 0)) (fun y => -1 * f y)) by (intros t; replace (-1 * t + 0) with (- t) by ring; rewrite Od; req; ring).
  rewrite RInt_scale by exact C. rewrite (RInt_swap f 0 a C). rint_gen. ring.
Qed.
Theorem full_turn_sin (h : R -> R) (psi : R) : (forall t, continuous (fun x => h (cos x)) t) ->
  RInt (fun x => sin (x - psi) * h (cos (x - psi))) 0 (2 * PI) = 0.
Proof.
  intros C. assert (C' : forall t, continuous (fun x => sin x * h (cos x)) t).
  { intros t. apply (continuous_mult (K := R_AbsRing)); [apply continuous_sin|apply C]. }
  etransitivity; [|exact (RInt_odd (fun y => sin y * h (cos y)) PI C' ltac:(intros t; cbv beta; rewrite cos_neg, sin_neg; ring))].
  pose proof (turn_shift (fun y => sin y * h (cos y)) psi (- PI) C' ltac:(intros x; cbv beta; rewrite cos_turn, sin_turn; reflexivity)) as T.
  replace (- PI + 2 * PI) with PI in T by ring. exact T.
Qed.
