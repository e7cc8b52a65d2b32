(** Energy and angular momentum of electrons on exact trajectories. *)
From Coq Require Import Reals Lra Lia Psatz.
From Coquelicot Require Import Coquelicot.
From Verif Require Import Base BaseFacts Vec GeomModel OutwardFacts FieldModel FieldFacts TracingModel TracingFacts Field3DFacts SeriesFacts ConvSpec ConvFacts ConvStep ExprSpec ExprFacts ExprSmooth BemSmooth.
Local Open Scope R_scope.

(** The position has the derivative [v] at [t]. *)
Definition pos_derivative (x : R -> vec3) (t : R) (v : vec3) : Prop :=
  is_derive (fun t => vx (x t)) t (vx v) /\ is_derive (fun t => vy (x t)) t (vy v) /\ is_derive (fun t => vz (x t)) t (vz v).
Lemma is_derive_to (f : R -> R) (x a b : R) : is_derive f x a -> a = b -> is_derive f x b.
Proof. intros H <-. exact H. Qed.
Lemma square_derive (g : R -> R) (t a c : R) : is_derive g t a -> is_derive (fun t => (c - g t) * (c - g t)) t (-2 * a * (c - g t)).
Proof.
  intros H. eapply is_derive_to.
  - apply (is_derive_comp (fun r : R => (c - r) * (c - r)) g t (-2 * (c - g t)) a); [auto_derive; [exact I|ring]|exact H].
  - unfold scal; cbn. unfold mult; cbn. ring.
Qed.
Lemma dist_derive (x : R -> vec3) t v q : pos_derivative x t v -> q <> x t ->
  is_derive (fun t => norm (vsub q (x t))) t (- dot (vsub q (x t)) v / norm (vsub q (x t))).
Proof.
  intros (A & B & C) N. apply norm_sub_pos in N. set (g := fun t => dot (vsub q (x t)) (vsub q (x t))).
  assert (Dg : is_derive g t (-2 * dot (vsub q (x t)) v)).
  { eapply is_derive_to.
    - unfold g, dot, vsub; cbn [vx vy vz]. apply (is_derive_plus (V := R_NormedModule)); [apply (is_derive_plus (V := R_NormedModule))|]; apply square_derive; eassumption.
    - unfold plus; cbn. unfold dot, vsub; cbn. ring. }
  assert (Pg : 0 < g t) by (unfold g; rewrite <- norm_sq; nra).
  apply (is_derive_ext (fun t => sqrt (g t))); [intros s; symmetry; apply norm_dot|]. eapply is_derive_to.
  - apply (is_derive_comp sqrt g t (/ (2 * sqrt (g t))) (-2 * dot (vsub q (x t)) v)); [|exact Dg]. eapply is_derive_to; [auto_derive; [exact Pg|reflexivity]|field]. pose proof (sqrt_lt_R0 _ Pg). lra.
  - unfold scal; cbn. unfold mult; cbn. unfold g. rewrite <- norm_dot. field. lra.
Qed.
Lemma point_along (x : R -> vec3) t v q : pos_derivative x t v -> q <> x t ->
  is_derive (fun t => potential_3d_point (x t) q) t (vx v * dx1_potential_3d_point (x t) q + vy v * dy1_potential_3d_point (x t) q + vz v * dz1_potential_3d_point (x t) q).
Proof.
  intros D N. pose proof (dist_derive x t v q D N) as Dn. apply norm_sub_pos in N. pose proof PI_RGT_0. unfold potential_3d_point. eapply is_derive_to.
  - apply (is_derive_comp (fun r : R => 1 / (4 * PI * r)) (fun t => norm (vsub q (x t))) t (- 1 / (4 * PI * norm (vsub q (x t)) ^ 2)) (- dot (vsub q (x t)) v / norm (vsub q (x t)))); [|exact Dn].
    eapply is_derive_to; [auto_derive; [nra|reflexivity]|field]. lra.
  - unfold scal; cbn -[norm pow]. unfold mult; cbn -[norm pow]. unfold dx1_potential_3d_point, dy1_potential_3d_point, dz1_potential_3d_point. unfold dot, vsub in *. cbn [vx vy vz] in *. field. lra.
Qed.
Lemma potential_along (x : R -> vec3) t v c : pos_derivative x t v -> off_charges c (x t) ->
  is_derive (fun t => potential_3d (x t) c) t (- dot v (field_3d (x t) c)).
Proof.
  intros D O. unfold potential_3d. eapply is_derive_to.
  - apply (evaluate_derive (fun t => potential_3d_point (x t))
      (fun q => vx v * dx1_potential_3d_point (x t) q + vy v * dy1_potential_3d_point (x t) q + vz v * dz1_potential_3d_point (x t) q)).
    intros y jp Hy Hj. apply point_along; [exact D|]. exact (O _ _ Hy Hj).
  - rewrite evaluate_lin3. unfold dot, field_3d; cbn [vx vy vz]. ring.
Qed.
Lemma half_square (g : R -> R) (t a : R) : is_derive g t a -> is_derive (fun t => g t * g t / 2) t (a * g t).
Proof.
  intros H. eapply is_derive_to.
  - apply (is_derive_comp (fun r : R => r * r / 2) g t (g t) a); [auto_derive; [exact I|field]|exact H].
  - unfold scal; cbn. unfold mult; cbn. ring.
Qed.
Lemma kinetic_along (u : R -> state) t g : has_derivative u t g ->
  is_derive (fun t => dot (s_vel (u t)) (s_vel (u t)) / 2) t (dot (s_vel g) (s_vel (u t))).
Proof.
  intros (_ & A & B & C).
  apply (is_derive_ext (fun t => vx (s_vel (u t)) * vx (s_vel (u t)) / 2 + vy (s_vel (u t)) * vy (s_vel (u t)) / 2 + vz (s_vel (u t)) * vz (s_vel (u t)) / 2)).
  { intros s. unfold dot. cbv beta. match goal with |- ?a = ?b => change (@eq R a b) end. field. }
  unfold dot. apply (is_derive_plus (V := R_NormedModule)); [apply (is_derive_plus (V := R_NormedModule))|]; apply half_square; assumption.
Qed.
(** A function with zero derivative on an interval. *)
Lemma zero_derivative (h : R -> R) T t : (forall t, 0 <= t <= T -> is_derive h t 0) -> 0 <= t <= T -> h t = h 0.
Proof.
  intros H Ht. destruct (Req_dec t 0) as [->|N]; [reflexivity|].
  destruct (MVT_gen h 0 t (fun _ => 0)) as (c & _ & E).
  - intros x Hx. rewrite Rmin_left, Rmax_right in Hx by lra. apply H. lra.
  - intros x Hx. rewrite Rmin_left, Rmax_right in Hx by lra. apply continuity_pt_filterlim. apply (ex_derive_continuous h x). exists 0. apply H. lra.
  - lra.
Qed.
Lemma dot_cross_self v B : dot (cross v B) v = 0.
Proof. unfold dot, cross; cbn. ring. Qed.
(** The magnetic force does no work. *)
Lemma lorentz_work v E H C : dot (combine_elec_magnetic_field v E H C) v = dot E v.
Proof.
  unfold combine_elec_magnetic_field. cbv zeta. replace (dot (vadd E (cross v (vscale MU_0 (vadd H C)))) v) with (dot E v + dot (cross v (vscale MU_0 (vadd H C))) v) by (unfold dot, vadd; cbn; ring).
  rewrite dot_cross_self. ring.
Qed.

Lemma norm_flip a b : norm (vsub a b) = norm (vsub b a).
Proof. unfold norm. apply (f_equal sqrt). unfold vsub; cbn. ring. Qed.
(** ** How much the energy changes with the state *)
Definition Lip (c : charges) : R := Rsum (map (fun x => Rabs (fst x) * Rsum (map (fun jp => Rabs (fst jp)) (snd x))) (q_items c)) / (4 * PI).
Lemma Rsum_abs_bound {A} (f g : A -> R) l : (forall a, In a l -> Rabs (f a) <= g a) -> Rabs (Rsum (map f l)) <= Rsum (map g l).
Proof.
  induction l as [|a l IH]; intros H; cbn; [rewrite Rabs_R0; lra|]. eapply Rle_trans; [apply Rabs_triang|]. apply Rplus_le_compat; [apply H; left; reflexivity|apply IH; intros; apply H; right; assumption].
Qed.
Lemma norm_diff q p p' : Rabs (norm (vsub q p) - norm (vsub q p')) <= norm (vsub p p').
Proof.
  pose proof (norm_triangle (vsub q p) (vsub p p')) as A. pose proof (norm_triangle (vsub q p') (vsub p' p)) as B.
  replace (vadd (vsub q p) (vsub p p')) with (vsub q p') in A by vec_ring. replace (vadd (vsub q p') (vsub p' p)) with (vsub q p) in B by vec_ring.
  rewrite (norm_flip p' p) in B. apply Rabs_le. lra.
Qed.
Lemma inverse_diff a b r d : 0 < r -> r <= a -> r <= b -> Rabs (a - b) <= d -> Rabs (1 / a - 1 / b) <= d / r ^ 2.
Proof.
  intros Hr Ha Hb Hd. replace (1 / a - 1 / b) with ((b - a) / (a * b)) by (field; lra). unfold Rdiv. rewrite Rabs_mult, (Rabs_pos_eq (/ (a * b))) by (left; apply Rinv_0_lt_compat; nra).
  rewrite Rabs_minus_sym in Hd. apply Rmult_le_compat; [apply Rabs_pos|left; apply Rinv_0_lt_compat; nra|exact Hd|]. apply Rinv_le_contravar; [|nra]. apply pow_lt. exact Hr.
Qed.
Lemma potential_lipschitz c p p' r : 0 < r -> clear_of r c p -> clear_of r c p' -> Rabs (potential_3d p c - potential_3d p' c) <= Lip c / r ^ 2 * norm (vsub p p').
Proof.
  intros Hr Hp Hp'. pose proof PI_RGT_0. set (d := norm (vsub p p')).
  set (K := potential_3d_point p). set (K' := potential_3d_point p').
  assert (E : potential_3d p c - potential_3d p' c = evaluate (fun q => 1 * K q + -1 * K' q + 0 * K q) c) by (rewrite evaluate_lin3; unfold potential_3d, K, K'; ring).
  rewrite E. unfold Lip, evaluate, source_sum. eapply Rle_trans.
  - apply (Rsum_abs_bound _ (fun x => Rabs (fst x) * Rsum (map (fun jp => Rabs (fst jp) * (d / r ^ 2 / (4 * PI))) (snd x)))). intros x Hx. rewrite Rabs_mult. apply Rmult_le_compat_l; [apply Rabs_pos|].
    apply Rsum_abs_bound. intros jp Hj. rewrite Rabs_mult. apply Rmult_le_compat_l; [apply Rabs_pos|]. unfold K, K', potential_3d_point.
    pose proof (Hp x jp Hx Hj) as A. pose proof (Hp' x jp Hx Hj) as B.
    replace (1 * (1 / (4 * PI * norm (vsub (snd jp) p))) + -1 * (1 / (4 * PI * norm (vsub (snd jp) p'))) + 0 * (1 / (4 * PI * norm (vsub (snd jp) p)))) with ((1 / norm (vsub (snd jp) p) - 1 / norm (vsub (snd jp) p')) * / (4 * PI)) by (field; repeat split; lra).
    rewrite Rabs_mult, (Rabs_pos_eq (/ (4 * PI))) by (left; apply Rinv_0_lt_compat; lra). apply Rmult_le_compat_r; [left; apply Rinv_0_lt_compat; lra|]. apply inverse_diff; [exact Hr|exact A|exact B|apply norm_diff].
  - right. set (k := d / r ^ 2 / (4 * PI)).
    transitivity (k * Rsum (map (fun x => Rabs (fst x) * Rsum (map (fun jp => Rabs (fst jp)) (snd x))) (q_items c))); [|unfold k; field; split; lra].
    rewrite <- Rsum_scal. apply Rsum_ext. intros x _. transitivity (Rabs (fst x) * (k * Rsum (map (fun jp => Rabs (fst jp)) (snd x)))); [|ring]. apply f_equal. rewrite <- Rsum_scal. apply Rsum_ext. intros jp _. ring.
Qed.
Lemma Rsum_pos {A} (f : A -> R) l : (forall a, In a l -> 0 <= f a) -> 0 <= Rsum (map f l).
Proof. induction l as [|a l IH]; intros H; cbn; [lra|]. apply Rplus_le_le_0_compat; [apply H; left; reflexivity|apply IH; intros; apply H; right; assumption]. Qed.
Lemma Lip_nonneg c : 0 <= Lip c.
Proof.
  unfold Lip. pose proof PI_RGT_0. apply Rmult_le_pos; [|left; apply Rinv_0_lt_compat; lra]. apply Rsum_pos. intros x _. apply Rmult_le_pos; [apply Rabs_pos|]. apply Rsum_pos. intros. apply Rabs_pos.
Qed.
Lemma kinetic_lipschitz v w M d : norm w <= M -> norm (vsub v w) <= d -> Rabs (dot v v / 2 - dot w w / 2) <= (d / 2 + M) * d.
Proof.
  intros Hw Hd. rewrite <- !norm_sq. pose proof (norm_nonneg v). pose proof (norm_nonneg w). pose proof (norm_nonneg (vsub v w)).
  assert (A : Rabs (norm v - norm w) <= d).
  { pose proof (norm_triangle w (vsub v w)) as A. pose proof (norm_triangle v (vsub w v)) as B. replace (vadd w (vsub v w)) with v in A by vec_ring. replace (vadd v (vsub w v)) with w in B by vec_ring.
    rewrite (norm_flip w v) in B. apply Rabs_le. lra. }
  replace (norm v * norm v / 2 - norm w * norm w / 2) with ((norm v + norm w) / 2 * (norm v - norm w)) by field. rewrite Rabs_mult, (Rabs_pos_eq ((norm v + norm w) / 2)) by lra.
  apply Rmult_le_compat; [lra|apply Rabs_pos| |exact A]. apply Rabs_le_between in A. lra.
Qed.
Lemma snorm_parts s : norm (s_pos s) <= snorm s /\ norm (s_vel s) <= snorm s.
Proof.
  pose proof (norm_le_sum (s_pos s)) as A. pose proof (norm_le_sum (s_vel s)) as B. unfold snorm.
  pose proof (Rabs_pos (vx (s_pos s))). pose proof (Rabs_pos (vy (s_pos s))). pose proof (Rabs_pos (vz (s_pos s))). pose proof (Rabs_pos (vx (s_vel s))). pose proof (Rabs_pos (vy (s_vel s))). pose proof (Rabs_pos (vz (s_vel s))). lra.
Qed.
