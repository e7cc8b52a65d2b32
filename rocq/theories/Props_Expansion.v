(** Property theorems about the coefficients of the three-dimensional expansion: C70. *)
From Coq Require Import Reals ZArith Lra Lia Psatz.
From Coquelicot Require Import Coquelicot.
From Verif Require Import Base BaseFacts Vec GeomModel PathModel PathOpsFacts OutwardFacts FieldModel SeriesModel SeriesFacts InterpFacts Field3DFacts Axial3DModel Axial3DFacts HarmonicFacts AxialTable.
Local Open Scope R_scope.

(** ** C70 Coefficients of the expansion around the axis *)
(** No effective point charge lies on the z axis. *)
Definition away_from_axis (c : charges) : Prop := forall x jp, In x (q_items c) -> In jp (snd x) -> vx (snd jp) <> 0 \/ vy (snd jp) <> 0.

Lemma locally_list {A} (l : list A) (P : A -> R -> Prop) (x : R) : (forall a, In a l -> locally x (P a)) -> locally x (fun t => forall a, In a l -> P a t).
Proof.
  induction l as [|a l IH]; intros Hl; [apply filter_forall; intros t b []|].
  pose proof (filter_and _ _ (Hl a (or_introl eq_refl)) (IH (fun b Hb => Hl b (or_intror Hb)))) as B. eapply filter_imp; [|exact B].
  intros t [Pa Pl] b [<-|Hb]; [exact Pa|exact (Pl b Hb)].
Qed.
Lemma quadr_near c d : 0 < d -> locally 0 (fun t => 0 < quadr c d t).
Proof.
  intros Hd. assert (He : 0 < d / (2 * Rabs c + 1)) by (apply Rdiv_lt_0_compat; [exact Hd|pose proof (Rabs_pos c); lra]).
  exists (mkposreal _ He). intros t Ht. change (Rabs (t - 0) < d / (2 * Rabs c + 1)) in Ht. rewrite Rminus_0_r in Ht.
  pose proof (Rabs_pos c) as Pc. pose proof (Rabs_pos t) as Pt. apply (Rmult_lt_compat_r (2 * Rabs c + 1)) in Ht; [|lra].
  replace (d / (2 * Rabs c + 1) * (2 * Rabs c + 1)) with d in Ht by (field; lra).
  pose proof (Rle_abs (c * t)) as A. rewrite Rabs_mult in A. unfold quadr. nra.
Qed.

Section point.
Variables (q : vec3) (z : R).
Definition rho := norm_2d (vx q) (vy q).
Definition dist_axis := sqrt (vx q * vx q + vy q * vy q + (vz q - z) * (vz q - z)).
Definition along (phi : R) := vx q * cos phi + vy q * sin phi.
Lemma dist_axis_sqr : dist_axis ^ 2 = vx q * vx q + vy q * vy q + (vz q - z) * (vz q - z).
Proof. unfold dist_axis. cbn. rewrite Rmult_1_r, sqrt_sqrt; [reflexivity|]. apply Rplus_le_le_0_compat; [apply Rplus_le_le_0_compat|]; apply Rle_0_sqr. Qed.
Lemma point_kernel phi t : potential_3d_point (V3 (t * cos phi) (t * sin phi) z) q = 1 / (4 * PI) * G 0 (along phi) (dist_axis ^ 2) t.
Proof.
  unfold potential_3d_point, G. cbn [gen_pair fst]. unfold norm, vsub. cbn [vx vy vz].
  replace ((vx q - t * cos phi) * (vx q - t * cos phi) + (vy q - t * sin phi) * (vy q - t * sin phi) + (vz q - z) * (vz q - z)) with (quadr (along phi) (dist_axis ^ 2) t).
  - unfold Rdiv. rewrite !Rinv_mult. ring.
  - rewrite dist_axis_sqr. unfold quadr, along. pose proof (sin2_cos2 phi) as T. unfold Rsqr in T.
    transitivity (t * t * (sin phi * sin phi + cos phi * cos phi) - 2 * (vx q * cos phi + vy q * sin phi) * t + (vx q * vx q + vy q * vy q + (vz q - z) * (vz q - z))); [rewrite T; ring|ring].
Qed.
Hypothesis off : vx q <> 0 \/ vy q <> 0.
Lemma rho_pos : 0 < rho.
Proof. unfold rho, norm_2d. apply sqrt_lt_R0. pose proof (Rle_0_sqr (vx q)) as A. pose proof (Rle_0_sqr (vy q)) as B. destruct off as [O|O]; apply Rsqr_pos_lt in O; unfold Rsqr in *; lra. Qed.
Lemma dist_axis_pos : 0 < dist_axis.
Proof. unfold dist_axis. apply sqrt_lt_R0. pose proof (Rle_0_sqr (vx q)) as A. pose proof (Rle_0_sqr (vy q)) as B. pose proof (Rle_0_sqr (vz q - z)) as C. destruct off as [O|O]; apply Rsqr_pos_lt in O; unfold Rsqr in *; lra. Qed.
Definition slope := rho / dist_axis.
Lemma along_polar phi : along phi / dist_axis = slope * cos (phi - atan2 (vy q) (vx q)).
Proof.
  destruct (atan2_polar (vx q) (vy q)) as [X Y]. fold (norm_2d (vx q) (vy q)) in X, Y. fold rho in X, Y. unfold slope, along. rewrite cos_minus. set (mu := atan2 (vy q) (vx q)) in *.
  transitivity ((rho * cos mu * cos phi + rho * sin mu * sin phi) / dist_axis); [rewrite X, Y; reflexivity|field; pose proof dist_axis_pos; lra].
Qed.
(** coefficients of one charge *)
Definition point_coef (n m : nat) : R := 1 / (4 * PI) * H n m slope / dist_axis ^ (S n).
Lemma term_value trig nu m : (nu < NU_MAX)%nat -> (m < M_MAX)%nat ->
  axial_term trig z nu m q * (if (m =? 0)%nat then 1 / 2 else 1) =
  (nth m (nth nu factorial_table []) 0 * INR (fact (2 * nu + m))) * (point_coef (2 * nu + m) m * (PI * trig q m)).
Proof.
  intros Hn Hm. pose proof rho_pos as Pr. pose proof dist_axis_pos as Pd. pose proof PI_RGT_0 as PP. unfold axial_term. fold dist_axis. fold rho.
  assert (S2 : slope ^ 2 * (1 + ((vz q - z) / rho) ^ 2) = 1).
  { unfold slope. assert (E : rho ^ 2 + (vz q - z) ^ 2 = dist_axis ^ 2) by (rewrite dist_axis_sqr; unfold rho; rewrite norm_2d_sqr; ring).
    transitivity ((rho ^ 2 + (vz q - z) ^ 2) / dist_axis ^ 2); [field; lra|rewrite E; field; lra]. }
  assert (Ps : 0 < slope) by (apply Rdiv_lt_0_compat; assumption). set (p := (vz q - z) / rho) in *.
  assert (P2 : p ^ 2 = / slope ^ 2 - 1).
  { apply (Rmult_eq_reg_l (slope ^ 2)); [|apply pow_nonzero; lra]. rewrite Rmult_minus_distr_l, Rinv_r by (apply pow_nonzero; lra). lra. }
  assert (SQ : sqrt (p ^ 2 + 1) = / slope).
  { replace (p ^ 2 + 1) with ((/ slope) * (/ slope)) by (rewrite P2; field; lra). apply sqrt_square. left. apply Rinv_0_lt_compat. exact Ps. }
  assert (EB : nth m (nth nu (output_base (p ^ 2) (p ^ 4) (p ^ 6) (p ^ 8) (p ^ 10) (p ^ 12) (p ^ 14) (sqrt (p ^ 2 + 1))) []) 0 = base nu m slope).
  { unfold base. cbv zeta. rewrite SQ, <- P2. rewrite <- !pow_mult. reflexivity. }
  rewrite EB. pose proof (base_value nu m slope Hn Hm ltac:(lra)) as B.
  transitivity (base nu m slope * (if (m =? 0)%nat then 1 / 2 else 1) * trig q m * ((1 / dist_axis) ^ (2 * nu + 1) * (1 / dist_axis) ^ m) * nth m (nth nu factorial_table []) 0); [ring|].
  rewrite B, <- pow_add. replace (2 * nu + 1 + m)%nat with (S (2 * nu + m)) by lia. unfold point_coef.
  set (n := (2 * nu + m)%nat). replace ((1 / dist_axis) ^ S n) with (/ dist_axis ^ S n) by (unfold Rdiv; rewrite Rmult_1_l, pow_inv; reflexivity).
  assert (dist_axis ^ S n <> 0) by (apply pow_nonzero; lra). field. split; lra.
Qed.
End point.

Lemma evaluate_lin2 (a b : R) K1 K2 c : evaluate (fun v => a * K1 v + b * K2 v) c = a * evaluate K1 c + b * evaluate K2 c.
Proof.
  transitivity (evaluate (fun v => a * K1 v + b * K2 v + 0 * 0) c); [apply evaluate_ext; intros; ring|].
  rewrite (evaluate_lin3 a b 0 K1 K2 (fun _ => 0)). ring.
Qed.
Lemma evaluate_fsum (B : nat -> vec3 -> R) (mu : vec3 -> R) c phi N :
  evaluate (fun q => fsum (fun m => B m q) (phi - mu q) N) c =
  Rsum (map (fun m => evaluate (fun q => B m q * cos (INR m * mu q)) c * cos (INR m * phi) + evaluate (fun q => B m q * sin (INR m * mu q)) c * sin (INR m * phi)) (arange N)).
Proof.
  unfold arange. induction N as [|N IH].
  - cbn [seq map Rsum fsum]. transitivity (evaluate (fun v => 0 * 0 + 0 * 0) c); [apply evaluate_ext; intros; ring|]. rewrite (evaluate_lin2 0 0 (fun _ => 0) (fun _ => 0)). ring.
  - rewrite seq_S, map_app, Rsum_app, <- IH. cbn [map Rsum Nat.add fsum]. rewrite Rplus_0_r.
    transitivity (evaluate (fun q => 1 * fsum (fun m => B m q) (phi - mu q) N + 1 * (cos (INR N * phi) * (B N q * cos (INR N * mu q)) + sin (INR N * phi) * (B N q * sin (INR N * mu q)))) c).
    + apply evaluate_ext. intros x Hx jp Hjp. replace (INR N * (phi - mu (snd jp))) with (INR N * phi - INR N * mu (snd jp)) by ring. rewrite cos_minus. ring.
    + rewrite evaluate_lin2. rewrite (evaluate_lin2 (cos (INR N * phi)) (sin (INR N * phi)) (fun q => B N q * cos (INR N * mu q)) (fun q => B N q * sin (INR N * mu q))). ring.
Qed.

(** Along every ray leaving the axis at height z at the angle phi, the n-th derivative of the potential at
    the axis is n! times a trigonometric polynomial in phi of degree n, the same for all phi, whose terms have
    the parity of n.  The computed coefficients of order (nu, m) are those of cos (m phi) and sin (m phi) for
    n = 2 nu + m, up to the rounding of the tabulated factorials. *)
Theorem C70_coefficients c z : away_from_axis c -> exists C S : nat -> nat -> R,
  (forall n phi, is_derive_n (fun t => potential_3d (V3 (t * cos phi) (t * sin phi) z) c) n 0
     (INR (fact n) * Rsum (map (fun m => C n m * cos (INR m * phi) + S n m * sin (INR m * phi)) (arange (n + 1))))) /\
  (forall n m, Nat.odd (n + m) = true -> C n m = 0 /\ S n m = 0) /\ (forall n, S n 0%nat = 0) /\
  (forall nu m, (nu < 4)%nat -> (m < 8)%nat ->
     Rabs (axial_coefficient false z c nu m - C (2 * nu + m)%nat m) <= 1e-15 * Rabs (C (2 * nu + m)%nat m) /\
     Rabs (axial_coefficient true z c nu m - S (2 * nu + m)%nat m) <= 1e-15 * Rabs (S (2 * nu + m)%nat m)).
Proof.
  intros Off. pose proof PI_RGT_0 as PP.
  exists (fun n m => evaluate (fun q => point_coef q z n m * cos (INR m * atan2 (vy q) (vx q))) c),
         (fun n m => evaluate (fun q => point_coef q z n m * sin (INR m * atan2 (vy q) (vx q))) c).
  split; [|split; [|split]].
  - intros n phi.
    assert (Dn : is_derive_n (fun t => potential_3d (V3 (t * cos phi) (t * sin phi) z) c) n 0 (evaluate (fun q => 1 / (4 * PI) * G n (along q phi) (dist_axis q z ^ 2) 0) c)).
    { apply (local_chain (fun n t => evaluate (fun q => 1 / (4 * PI) * G n (along q phi) (dist_axis q z ^ 2) t) c)).
      assert (L : locally 0 (fun t => forall x, In x (q_items c) -> forall jp, In jp (snd x) -> 0 < quadr (along (snd jp) phi) (dist_axis (snd jp) z ^ 2) t)).
      { apply (locally_list (q_items c) (fun x t => forall jp, In jp (snd x) -> 0 < quadr (along (snd jp) phi) (dist_axis (snd jp) z ^ 2) t)). intros x Hx.
        apply (locally_list (snd x) (fun jp t => 0 < quadr (along (snd jp) phi) (dist_axis (snd jp) z ^ 2) t)). intros jp Hjp.
        apply quadr_near. apply pow_lt, dist_axis_pos. exact (Off x jp Hx Hjp). }
      eapply filter_imp; [|exact L]. intros t Ht. split.
      - unfold potential_3d. apply evaluate_ext. intros x Hx jp Hjp. apply point_kernel.
      - intros k. apply (evaluate_derive (fun t q => 1 / (4 * PI) * G k (along q phi) (dist_axis q z ^ 2) t)). intros x jp Hx Hjp.
        apply (is_derive_scal (fun t => G k (along (snd jp) phi) (dist_axis (snd jp) z ^ 2) t)). apply G_derive. exact (Ht x Hx jp Hjp). }
    replace (INR (fact n) * _) with (evaluate (fun q => 1 / (4 * PI) * G n (along q phi) (dist_axis q z ^ 2) 0) c); [exact Dn|]. clear Dn.
    replace (n + 1)%nat with (S n) by lia. rewrite <- (evaluate_fsum (fun m q => point_coef q z n m) (fun q => atan2 (vy q) (vx q)) c phi (S n)).
    replace (INR (fact n) * evaluate (fun q => fsum (fun m => point_coef q z n m) (phi - atan2 (vy q) (vx q)) (S n)) c) with
      (INR (fact n) * evaluate (fun q => fsum (fun m => point_coef q z n m) (phi - atan2 (vy q) (vx q)) (S n)) c + 0 * evaluate (fun _ => 0) c) by ring.
    rewrite <- evaluate_lin2. apply evaluate_ext. intros x Hx jp Hjp. set (q := snd jp). pose proof (Off x jp Hx Hjp) as O. fold q in O.
    pose proof (dist_axis_pos q z O) as Pd. rewrite G_at_0 by exact Pd. rewrite along_polar by exact O. rewrite legendre_cos.
    rewrite (fsum_ext (fun m => point_coef q z n m) (fun m => (1 / (4 * PI) / dist_axis q z ^ S n) * H n m (slope q z) + 0 * 0)).
    2: { intros m. unfold point_coef, Rdiv. ring. }
    rewrite (fsum_lin (fun m => H n m (slope q z)) (fun _ => 0)). field. repeat split; try lra. apply pow_nonzero. lra.
  - intros n m Hp. assert (Z : forall w : vec3 -> R, evaluate (fun q => point_coef q z n m * w q) c = 0).
    { intros w. transitivity (evaluate (fun v => 0 * 0 + 0 * 0) c); [|rewrite (evaluate_lin2 0 0 (fun _ => 0) (fun _ => 0)); ring].
      apply evaluate_ext. intros. unfold point_coef. rewrite H_parity by exact Hp. unfold Rdiv. ring. }
    split; apply Z.
  - intros n. transitivity (evaluate (fun v => 0 * 0 + 0 * 0) c); [|rewrite (evaluate_lin2 0 0 (fun _ => 0) (fun _ => 0)); ring].
    apply evaluate_ext. intros. cbn [INR]. rewrite Rmult_0_l, sin_0. ring.
  - intros nu m Hn Hm. set (f := nth m (nth nu factorial_table []) 0 * INR (fact (2 * nu + m))). pose proof (factorial_value nu m Hn Hm) as F. fold f in F.
    assert (E : forall (trig w : vec3 -> nat -> R), (forall q, axial_term trig z nu m q * 1 = axial_term trig z nu m q) ->
                (forall q, vx q <> 0 \/ vy q <> 0 -> axial_term trig z nu m q = f * (point_coef q z (2 * nu + m) m * w q m)) ->
                Rabs (evaluate (axial_term trig z nu m) c - evaluate (fun q => point_coef q z (2 * nu + m) m * w q m) c) <= 1e-15 * Rabs (evaluate (fun q => point_coef q z (2 * nu + m) m * w q m) c)).
    { intros trig w _ T. set (X := evaluate (fun q => point_coef q z (2 * nu + m) m * w q m) c).
      replace (evaluate (axial_term trig z nu m) c) with (f * X).
      - replace (f * X - X) with ((f - 1) * X) by ring. rewrite Rabs_mult. apply Rmult_le_compat_r; [apply Rabs_pos|exact F].
      - replace (f * X) with (f * X + 0 * evaluate (fun _ => 0) c) by ring. unfold X. rewrite <- evaluate_lin2. apply evaluate_ext. intros x Hx jp Hjp. rewrite T; [ring|exact (Off x jp Hx Hjp)]. }
    split.
    + unfold axial_coefficient. apply (E trig_cos (fun q m => cos (INR m * atan2 (vy q) (vx q)))); [intros; ring|]. intros q O.
      pose proof (term_value q z O trig_cos nu m Hn Hm) as T. unfold trig_cos in T at 2. fold f in T.
      destruct (m =? 0)%nat.
      * apply (Rmult_eq_reg_r (1 / 2)); [|lra]. rewrite T. field. lra.
      * rewrite Rmult_1_r in T. rewrite T. field. lra.
    + unfold axial_coefficient. apply (E trig_sin (fun q m => sin (INR m * atan2 (vy q) (vx q)))); [intros; ring|]. intros q O.
      pose proof (term_value q z O trig_sin nu m Hn Hm) as T. unfold trig_sin in T at 2. fold f in T.
      destruct (m =? 0)%nat eqn:E0.
      * apply Nat.eqb_eq in E0. subst m. unfold axial_term, trig_sin. cbn [INR]. rewrite !Rmult_0_l, sin_0. ring.
      * rewrite Rmult_1_r in T. rewrite T. field. lra.
Qed.
Print Assumptions C70_coefficients.
Example C70_nonvacuous : away_from_axis (mkcharges TRIANGLE_RULE [(3, [(1, V3 1 0 0); (2, V3 0 2 5)])]) /\
  axial_coefficient false 0 (mkcharges TRIANGLE_RULE [(1, [(1, V3 1 0 0)])]) 0 0 = 1 / (4 * PI).
Proof.
  pose proof PI_RGT_0. split.
  - intros x jp [<-|[]] [<-|[<-|[]]]; cbn; [left|right]; lra.
  - unfold axial_coefficient, evaluate, source_sum, axial_term, trig_cos. cbn -[sqrt PI cos INR]. cbn [INR]. rewrite Rmult_0_l, cos_0.
    replace (1 * 1 + 0 * 0 + (0 - 0) * (0 - 0)) with 1 by ring. rewrite sqrt_1. replace 1.0 with 1 by lra. field. lra.
Qed.
