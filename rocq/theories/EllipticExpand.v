(** The complete elliptic integrals are the sums of their power series. *)
From Coq Require Import Reals Lra Lia Psatz.
From Coquelicot Require Import Coquelicot.
From Verif Require Import SeriesFacts EllipticSpec EllipticFacts EllipticSeries.
Local Open Scope R_scope.

(** ** Differentiation of E *)
Definition E_integrand' (u t : R) : R := - / 2 * sin t ^ 2 * / sqrt (1 - u * sin t ^ 2).
Lemma E_integrand_derive u t : u < 1 -> is_derive (fun u => sqrt (1 - u * sin t ^ 2)) u (E_integrand' u t).
Proof.
  intros H. pose proof (delta_pos u t H) as P. pose proof (delta_sqrt_pos u t H) as Q. unfold E_integrand'. auto_derive; dnorm u t; [conds|].
  change (1 + - (u * (sin t * sin t))) with (1 - u * (sin t * sin t)). set (w := sqrt (1 - u * (sin t * sin t))) in *. req. field. lra.
Qed.
Lemma E_integrand'_continuous u t : u < 1 -> continuity_2d_pt E_integrand' u t.
Proof.
  intros H. pose proof (delta_pos u t H) as P. pose proof (delta_sqrt_pos u t H) as Q. unfold E_integrand'.
  assert (S : continuity_2d_pt (fun _ v => sin v ^ 2) u t).
  { apply (continuity_1d_2d_pt_comp (fun x => sin x ^ 2) (fun _ v => v)); [|apply continuity_2d_pt_id2].
    apply continuity_pt_filterlim. apply (ex_derive_continuous (V := R_NormedModule)). auto_derive. exact I. }
  apply continuity_2d_pt_mult; [apply continuity_2d_pt_mult; [apply continuity_2d_pt_const|exact S]|].
  apply (continuity_1d_2d_pt_comp (fun x => / sqrt x) (fun u v => 1 - u * sin v ^ 2)).
  - apply continuity_pt_filterlim. apply (ex_derive_continuous (V := R_NormedModule) (fun x => / sqrt x)). auto_derive. cbn [pow] in *. conds.
  - apply continuity_2d_pt_minus; [apply continuity_2d_pt_const|]. apply continuity_2d_pt_mult; [apply continuity_2d_pt_id1|exact S].
Qed.
Theorem E_derive m : m < 1 -> is_derive elliptic_E m (RInt (E_integrand' m) 0 (PI / 2)).
Proof.
  intros H. assert (E : RInt (E_integrand' m) 0 (PI / 2) = RInt (fun t => Derive (fun u => sqrt (1 - u * sin t ^ 2)) m) 0 (PI / 2)).
  { apply RInt_eq. intros t. symmetry. apply is_derive_unique, E_integrand_derive, H. }
  rewrite E. apply (is_derive_RInt_param (fun u t => sqrt (1 - u * sin t ^ 2)) 0 (PI / 2) m).
  - apply (filter_imp (fun u => u < 1)); [|apply below_one, H]. intros u Hu t _. exists (E_integrand' u t). apply E_integrand_derive, Hu.
  - intros t _. apply (continuity_2d_pt_ext_loc E_integrand'); [|apply E_integrand'_continuous, H].
    exists (mkposreal (1 - m) ltac:(lra)). intros u v Hu _. cbn in Hu. symmetry. apply is_derive_unique, E_integrand_derive. apply Rabs_def2 in Hu. lra.
  - apply (filter_imp (fun u => u < 1)); [|apply below_one, H]. intros u Hu. apply cont_ex_RInt. intros t. apply E_continuous, Hu.
Qed.
Theorem E_derive_formula m : m < 1 -> m <> 0 -> is_derive elliptic_E m ((elliptic_E m - elliptic_K m) / (2 * m)).
Proof.
  intros H N. eapply is_derive_eq; [apply E_derive, H|].
  rewrite (RInt_eq _ (fun t => / (2 * m) * sqrt (1 - m * sin t ^ 2) + - / (2 * m) * / sqrt (1 - m * sin t ^ 2))).
  - rewrite RInt_lin by (intros t; first [apply K_continuous, H|apply E_continuous, H]). fold (elliptic_K m) (elliptic_E m). req. field. lra.
  - intros t. unfold E_integrand'. pose proof (delta_pos m t H) as P. pose proof (delta_sqrt_pos m t H) as Q. set (w := sqrt (1 - m * sin t ^ 2)) in *.
    assert (W : w ^ 2 = 1 - m * sin t ^ 2) by (unfold w; rewrite <- Rsqr_pow2, Rsqr_sqrt; lra).
    replace (sin t ^ 2) with ((1 - w ^ 2) / m) by (rewrite W; field; exact N). req. field. split; lra.
Qed.

(** ** A function with derivative zero *)
Lemma derive_zero (f : R -> R) a b : a <= b -> (forall x, a < x < b -> is_derive f x 0) -> (forall x, a <= x <= b -> continuity_pt f x) -> f b = f a.
Proof.
  intros Hab D C. destruct (MVT_gen f a b (fun _ => 0)) as (c & _ & E).
  - intros x Hx. rewrite Rmin_left, Rmax_right in Hx by lra. apply D, Hx.
  - intros x Hx. rewrite Rmin_left, Rmax_right in Hx by lra. apply C, Hx.
  - lra.
Qed.
Lemma derivable_continuity (f : R -> R) x l : is_derive f x l -> continuity_pt f x.
Proof. intros D. apply continuity_pt_filterlim. apply (ex_derive_continuous (V := R_NormedModule)). exists l. exact D. Qed.
Lemma is_derive_mult_R (f g : R -> R) x df dg : is_derive f x df -> is_derive g x dg -> is_derive (fun x => f x * g x) x (df * g x + f x * dg).
Proof. intros F G. apply (is_derive_mult f g x df dg F G). intros n m. apply Rmult_comm. Qed.
Lemma is_derive_minus_R (f g : R -> R) x df dg : is_derive f x df -> is_derive g x dg -> is_derive (fun x => f x - g x) x (df - dg).
Proof. intros F G. apply (is_derive_minus (V := R_NormedModule) f g x df dg F G). Qed.
Lemma is_derive_plus_R (f g : R -> R) x df dg : is_derive f x df -> is_derive g x dg -> is_derive (fun x => f x + g x) x (df + dg).
Proof. intros F G. apply (is_derive_plus (V := R_NormedModule) f g x df dg F G). Qed.
Lemma is_derive_scal_R (f : R -> R) x df c : is_derive f x df -> is_derive (fun x => c * f x) x (c * df).
Proof. intros F. apply (is_derive_scal f x c df F). Qed.

(** ** Around the parameter zero *)
Section Zero.
Let s (m : R) : R := 2 * PSeries pc m.
Let s' (m : R) : R := 2 * PS' pc m.
Lemma s_derive m : 0 <= m < 1 -> is_derive s m (s' m).
Proof. intros H. apply is_derive_scal_R, ps_is_derive; [apply pc_bounded|rewrite Rabs_pos_eq; lra]. Qed.
Lemma e_derive m : 0 <= m < 1 -> is_derive (PSeries ec) m (PS' ec m).
Proof. intros H. apply ps_is_derive; [apply ec_bounded|rewrite Rabs_pos_eq; lra]. Qed.
Lemma wronskian_zero m : 0 <= m < 1 -> elliptic_K m * PSeries ec m = elliptic_E m * s m.
Proof.
  intros H. set (W := fun m => elliptic_K m * PSeries ec m - elliptic_E m * s m). cut (W m = W 0).
  { assert (W0 : W 0 = 0) by (unfold W, s; rewrite K_zero, E_zero, !PSeries_0; unfold ec; cbn [pc INR]; field). rewrite W0. unfold W. intros E0. lra. }
  apply derive_zero; [lra| |].
  - intros x Hx. unfold W. eapply is_derive_eq.
    + apply is_derive_minus_R; apply is_derive_mult_R; [apply K_derive_formula; lra|apply e_derive; lra|apply E_derive_formula; lra|apply s_derive; lra].
    + assert (Q : Rabs x < 1) by (rewrite Rabs_pos_eq; lra). pose proof (E_ode x Q) as O1. pose proof (K_ode x Q) as O2. unfold s, s' in *.
      set (K := elliptic_K x) in *. set (E := elliptic_E x) in *. set (p := PSeries pc x) in *. set (p' := PS' pc x) in *. set (e := PSeries ec x) in *. set (e' := PS' ec x) in *.
      assert (E1 : e' = (e - 2 * p) / (2 * x)) by (rewrite <- O1; field; lra). assert (E2 : 2 * p' = (e - (1 - x) * (2 * p)) / (2 * x * (1 - x))) by (rewrite <- O2; field; lra).
      clearbody e' p' e p K E. rewrite E1, E2. req. field. lra.
  - intros x Hx. unfold W. eapply derivable_continuity. apply is_derive_minus_R; apply is_derive_mult_R; [apply K_derive; lra|apply e_derive; lra|apply E_derive; lra|apply s_derive; lra].
Qed.
Lemma s_pos m : 0 <= m < 1 -> 1 <= s m.
Proof.
  intros H. unfold s. assert (Q : Rabs m < 1) by (rewrite Rabs_pos_eq; lra).
  assert (E : ex_pseries pc m) by (eexists; apply ps_sum; [apply pc_bounded|exact Q]).
  rewrite (PSeries_decr_1 pc m E). cbn [pc]. cut (0 <= PSeries (PS_decr_1 pc) m); [intros; nra|].
  unfold PSeries. replace 0 with (Series (fun n : nat => 0 * 0 ^ n)) by (rewrite Series_scal_l; ring). apply Series_le.
  - intros n. rewrite Rmult_0_l. split; [lra|]. apply Rmult_le_pos; [apply pc_range|apply pow_le; lra].
  - apply ex_series_Rabs, CV_disk_inside, bounded_radius; [exists (1 / 2); intros n; apply pc_abs|exact Q].
Qed.
Theorem K_series m : 0 <= m < 1 -> elliptic_K m = PI / 2 * (2 * PSeries pc m).
Proof.
  intros H. fold (s m). set (Q := fun m => elliptic_K m / s m). cut (Q m = Q 0).
  { unfold Q. rewrite K_zero. replace (s 0) with 1 by (unfold s; rewrite PSeries_0; cbn [pc]; lra). intros E. pose proof (s_pos m H). rewrite <- (Rmult_1_r (elliptic_K m)), <- (Rinv_l (s m)) by lra. unfold Rdiv in E. rewrite <- Rmult_assoc, E. lra. }
  assert (D : forall x dK : R, 0 <= x < 1 -> is_derive elliptic_K x dK -> is_derive Q x (dK * / s x + elliptic_K x * (- s' x / (s x) ^ 2))).
  { intros x dK Hx DK. apply (is_derive_mult_R elliptic_K (fun m => / s m) x dK (- s' x / (s x) ^ 2)); [exact DK|]. pose proof (s_pos x Hx). apply (is_derive_inv s x (s' x)); [apply s_derive, Hx|lra]. }
  apply derive_zero; [lra| |].
  - intros x Hx. eapply is_derive_eq; [apply D; [lra|apply K_derive_formula; lra]|]. pose proof (s_pos x ltac:(lra)) as P. pose proof (wronskian_zero x ltac:(lra)) as W.
    assert (A : Rabs x < 1) by (rewrite Rabs_pos_eq; lra). pose proof (K_ode x A) as O. fold (s' x) (s x) in O. assert (E2 : s' x = (PSeries ec x - (1 - x) * s x) / (2 * x * (1 - x))) by (rewrite <- O; field; lra).
    rewrite E2. set (K := elliptic_K x) in *. set (E := elliptic_E x) in *. set (e := PSeries ec x) in *. set (y := s x) in *. clearbody K E e y. req.
    replace ((E / (1 - x) - K) / (2 * x) * / y + K * (- ((e - (1 - x) * y) / (2 * x * (1 - x))) / y ^ 2)) with ((E * y - K * e) / (2 * x * (1 - x) * y ^ 2)) by (field; lra).
    rewrite W. unfold Rdiv. ring.
  - intros x Hx. eapply derivable_continuity, D; [lra|apply K_derive; lra].
Qed.
Theorem E_series m : 0 <= m < 1 -> elliptic_E m = PI / 2 * PSeries ec m.
Proof.
  intros H. pose proof (s_pos m H) as P. pose proof (wronskian_zero m H) as W. rewrite (K_series m H) in W. fold (s m) in W. apply (Rmult_eq_reg_r (s m)); [|lra]. rewrite <- W. ring.
Qed.
End Zero.
