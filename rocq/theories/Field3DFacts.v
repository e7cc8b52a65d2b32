(** The three-dimensional field as gradient of the potential. *)
From Coq Require Import Reals Lra Lia Psatz.
From Coquelicot Require Import Coquelicot.
From Verif Require Import Base BaseFacts Vec GeomModel OutwardFacts FieldModel FieldFacts SeriesModel SeriesFacts.
Local Open Scope R_scope.

(** No effective point charge lies at [p]. *)
Definition off_charges (c : charges) (p : vec3) : Prop := forall x jp, In x (q_items c) -> In jp (snd x) -> snd jp <> p.
(** [g] is the gradient of [f] at [p]: the derivative along every line through [p]. *)
Definition gradient (f : vec3 -> R) (p g : vec3) : Prop := forall d, is_derive (fun t => f (vadd p (vscale t d))) 0 (dot g d).

Lemma Rsum_derive {A} (f : A -> R -> R) (f' : A -> R) (l : list A) (x : R) : (forall a, In a l -> is_derive (f a) x (f' a)) ->
  is_derive (fun t => Rsum (map (fun a => f a t) l)) x (Rsum (map f' l)).
Proof.
  intros H. induction l as [|a l IH]; cbn.
  - apply (is_derive_const (V := R_NormedModule)).
  - apply (is_derive_plus (V := R_NormedModule)); [apply H; left; reflexivity|apply IH; intros b Hb; apply H; right; exact Hb].
Qed.
Lemma evaluate_derive (K : R -> vec3 -> R) (K' : vec3 -> R) c (x : R) :
  (forall y jp, In y (q_items c) -> In jp (snd y) -> is_derive (fun t => K t (snd jp)) x (K' (snd jp))) ->
  is_derive (fun t => evaluate (K t) c) x (evaluate K' c).
Proof.
  intros H. unfold evaluate. apply (Rsum_derive (fun y t => fst y * source_sum (K t) (snd y)) (fun y => fst y * source_sum K' (snd y))).
  intros y Hy. apply (is_derive_scal (fun t => source_sum (K t) (snd y))). unfold source_sum.
  apply (Rsum_derive (fun jp t => fst jp * K t (snd jp)) (fun jp => fst jp * K' (snd jp))).
  intros jp Hjp. apply (is_derive_scal (fun t => K t (snd jp))). apply (H y); assumption.
Qed.
Lemma norm_sub_pos q p : q <> p -> 0 < norm (vsub q p).
Proof.
  intros N. destruct (norm_nonneg (vsub q p)) as [|E]; [assumption|]. exfalso. apply N. symmetry in E. apply norm_zero in E.
  destruct q, p. unfold vsub, vzero in E. cbn in E. injection E as H1 H2 H3. f_equal; lra.
Qed.
Lemma norm_line_derive (q p d : vec3) (t0 : R) : q <> vadd p (vscale t0 d) ->
  is_derive (fun t => norm (vsub q (vadd p (vscale t d)))) t0 (- dot (vsub q (vadd p (vscale t0 d))) d / norm (vsub q (vadd p (vscale t0 d)))).
Proof.
  intros N. apply norm_sub_pos in N. destruct q as [qx qy qz], p as [px py pz], d as [dx dy dz].
  unfold norm, vsub, vadd, vscale, dot in *; cbn [vx vy vz] in *.
  pose proof N as N'. rewrite <- sqrt_0 in N'. apply sqrt_lt_0_alt in N'. auto_derive; [lra|].
  fold (qx - (px + t0 * dx)) (qy - (py + t0 * dy)) (qz - (pz + t0 * dz)). field. lra.
Qed.
Lemma point_derive (q p d : vec3) : q <> p ->
  is_derive (fun t => potential_3d_point (vadd p (vscale t d)) q) 0
    (vx d * dx1_potential_3d_point p q + vy d * dy1_potential_3d_point p q + vz d * dz1_potential_3d_point p q).
Proof.
  intros N. assert (P0 : vadd p (vscale 0 d) = p) by (destruct p; unfold vadd, vscale; cbn; f_equal; ring).
  assert (N0 : q <> vadd p (vscale 0 d)) by (rewrite P0; exact N).
  pose proof (norm_line_derive q p d 0 N0) as D. pose proof (norm_sub_pos _ _ N) as P. rewrite P0 in D.
  unfold potential_3d_point. pose proof PI_RGT_0.
  eapply is_derive_eq.
  - apply (is_derive_comp (fun r : R => 1 / (4 * PI * r)) (fun t => norm (vsub q (vadd p (vscale t d)))) 0 (- 1 / (4 * PI * norm (vsub q p) ^ 2)) (- dot (vsub q p) d / norm (vsub q p))).
    + rewrite P0. auto_derive; [nra|]. field. lra.
    + exact D.
  - req. unfold scal; cbn -[norm pow]. unfold mult; cbn -[norm pow]. unfold dx1_potential_3d_point, dy1_potential_3d_point, dz1_potential_3d_point. unfold dot, vsub in *. cbn [vx vy vz] in *. field. lra.
Qed.
Lemma evaluate_lin3 (a b c : R) K1 K2 K3 q : evaluate (fun v => a * K1 v + b * K2 v + c * K3 v) q = a * evaluate K1 q + b * evaluate K2 q + c * evaluate K3 q.
Proof.
  unfold evaluate. rewrite <- !Rsum_scal, <- !Rsum_plus. apply Rsum_ext. intros x _. unfold source_sum.
  replace (Rsum (map (fun jp => fst jp * (a * K1 (snd jp) + b * K2 (snd jp) + c * K3 (snd jp))) (snd x))) with
    (a * Rsum (map (fun jp => fst jp * K1 (snd jp)) (snd x)) + b * Rsum (map (fun jp => fst jp * K2 (snd jp)) (snd x)) + c * Rsum (map (fun jp => fst jp * K3 (snd jp)) (snd x))).
  - ring.
  - rewrite <- !Rsum_scal, <- !Rsum_plus. apply Rsum_ext. intros jp _. ring.
Qed.
Lemma field_is_gradient c p : off_charges c p -> gradient (fun x => potential_3d x c) p (vneg (field_3d p c)).
Proof.
  intros O d. unfold potential_3d. eapply is_derive_eq.
  - apply (evaluate_derive (fun t => potential_3d_point (vadd p (vscale t d)))
      (fun q => vx d * dx1_potential_3d_point p q + vy d * dy1_potential_3d_point p q + vz d * dz1_potential_3d_point p q)).
    intros y jp Hy Hj. apply point_derive. exact (O _ _ Hy Hj).
  - rewrite evaluate_lin3. unfold dot, vneg, field_3d; cbn [vx vy vz]. ring.
Qed.

(** The divergence of the field vanishes away from the charges. *)
Definition divergence (F : vec3 -> vec3) (p : vec3) (x : R) : Prop :=
  exists a b c, x = a + b + c /\
    is_derive (fun t => vx (F (vadd p (vscale t ex)))) 0 a /\
    is_derive (fun t => vy (F (vadd p (vscale t ey)))) 0 b /\
    is_derive (fun t => vz (F (vadd p (vscale t ez)))) 0 c.
Definition dd1 (g : vec3 -> R) (p q : vec3) : R := (-1 + 3 * g (vsub q p) ^ 2 / norm (vsub q p) ^ 2) / (4 * PI * norm (vsub q p) ^ 3).
Lemma point_derive2 (g : vec3 -> R) (d q p : vec3) : (forall u, g u = dot u d) -> dot d d = 1 -> q <> p ->
  is_derive (fun t => g (vsub q (vadd p (vscale t d))) / (4 * PI * norm (vsub q (vadd p (vscale t d))) ^ 3)) 0 (dd1 g p q).
Proof.
  intros G D1 N. assert (P0 : vadd p (vscale 0 d) = p) by (destruct p; unfold vadd, vscale; cbn; f_equal; ring).
  assert (N0 : q <> vadd p (vscale 0 d)) by (rewrite P0; exact N).
  pose proof (norm_line_derive q p d 0 N0) as D. pose proof (norm_sub_pos _ _ N) as P. rewrite P0 in D.
  set (n := fun t : R => norm (vsub q (vadd p (vscale t d)))) in *. assert (n0 : n 0 = norm (vsub q p)) by (unfold n; rewrite P0; reflexivity).
  apply is_derive_ext with (f := fun t : R => (g (vsub q p) - t) / (4 * PI * n t ^ 3)).
  { intros t. unfold n. f_equal. rewrite !G. replace (dot (vsub q (vadd p (vscale t d))) d) with (dot (vsub q p) d - t * dot d d); [rewrite D1; ring|].
    unfold dot, vsub, vadd, vscale; cbn. ring. }
  pose proof PI_RGT_0. change (is_derive n 0 (- dot (vsub q p) d / norm (vsub q p))) in D. clearbody n.
  assert (Dn : ex_derive n 0) by (eexists; exact D).
  assert (Dv : Derive n 0 = - dot (vsub q p) d / norm (vsub q p)) by (apply is_derive_unique; exact D).
  auto_derive.
  - split; [exact Dn|]. split; [|trivial]. rewrite n0. apply Rgt_not_eq. apply Rmult_lt_0_compat; [lra|]. repeat apply Rmult_lt_0_compat; lra.
  - replace (Derive (fun x : R => n x) 0) with (- dot (vsub q p) d / norm (vsub q p)) by (symmetry; exact Dv). rewrite n0, <- G. unfold dd1. field. lra.
Qed.
Lemma evaluate_sum3 K1 K2 K3 q : evaluate K1 q + evaluate K2 q + evaluate K3 q = evaluate (fun v => K1 v + K2 v + K3 v) q.
Proof.
  assert (H := evaluate_lin3 1 1 1 K1 K2 K3 q). rewrite !Rmult_1_l in H. rewrite <- H.
  unfold evaluate, source_sum. apply Rsum_ext. intros x _. f_equal. apply Rsum_ext. intros jp _. ring.
Qed.
Lemma field_divergence c p : off_charges c p -> divergence (fun x => field_3d x c) p 0.
Proof.
  intros O. exists (- evaluate (dd1 vx p) c), (- evaluate (dd1 vy p) c), (- evaluate (dd1 vz p) c). split; [|split; [|split]].
  - replace (- evaluate (dd1 vx p) c + - evaluate (dd1 vy p) c + - evaluate (dd1 vz p) c) with (- (evaluate (dd1 vx p) c + evaluate (dd1 vy p) c + evaluate (dd1 vz p) c)) by ring.
    rewrite evaluate_sum3. replace (evaluate (fun v => dd1 vx p v + dd1 vy p v + dd1 vz p v) c) with (evaluate (fun _ => 0) c).
    + unfold evaluate, source_sum. replace (Rsum _) with 0; [ring|]. symmetry.
      rewrite (Rsum_ext _ (fun _ => 0 * 0)); [rewrite Rsum_scal; ring|]. intros x _. rewrite (Rsum_ext _ (fun _ => 0 * 0)); [rewrite Rsum_scal; ring|]. intros y _. ring.
    + apply evaluate_ext. intros x Hx jp Hj. pose proof (norm_sub_pos _ _ (O _ _ Hx Hj)) as P. unfold dd1. set (n := norm (vsub (snd jp) p)) in *.
      assert (E : n * n = vx (vsub (snd jp) p) ^ 2 + vy (vsub (snd jp) p) ^ 2 + vz (vsub (snd jp) p) ^ 2) by (unfold n; rewrite norm_sq; unfold dot; ring).
      pose proof PI_RGT_0. symmetry.
      transitivity ((-3 + 3 * (vx (vsub (snd jp) p) ^ 2 + vy (vsub (snd jp) p) ^ 2 + vz (vsub (snd jp) p) ^ 2) / n ^ 2) / (4 * PI * n ^ 3)); [field; lra|]. rewrite <- E. field. lra.
  - apply (is_derive_opp (V := R_NormedModule)). apply (evaluate_derive (fun t => dx1_potential_3d_point (vadd p (vscale t ex)))). intros y jp Hy Hj.
    apply (point_derive2 vx ex); [intros []; unfold dot, ex; cbn; ring|unfold dot, ex; cbn; ring|exact (O _ _ Hy Hj)].
  - apply (is_derive_opp (V := R_NormedModule)). apply (evaluate_derive (fun t => dy1_potential_3d_point (vadd p (vscale t ey)))). intros y jp Hy Hj.
    apply (point_derive2 vy ey); [intros []; unfold dot, ey; cbn; ring|unfold dot, ey; cbn; ring|exact (O _ _ Hy Hj)].
  - apply (is_derive_opp (V := R_NormedModule)). apply (evaluate_derive (fun t => dz1_potential_3d_point (vadd p (vscale t ez)))). intros y jp Hy Hj.
    apply (point_derive2 vz ez); [intros []; unfold dot, ez; cbn; ring|unfold dot, ez; cbn; ring|exact (O _ _ Hy Hj)].
Qed.
