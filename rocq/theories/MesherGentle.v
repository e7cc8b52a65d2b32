(** Families of surfaces on which subdivision behaves: sides halve when a rectangle is halved. *)
From Coq Require Import Reals Lra Psatz Sorted.
From Verif Require Import Base BaseFacts Vec GeomModel GeomFacts QuadModel KronrodFacts PathModel PathSpec PathFacts PolyFacts
  SurfaceModel SurfaceFacts MesherModel MesherFacts MesherRun MesherSpec MesherTile MesherTri MesherSurf MesherEnd MesherWhole MesherTotal.
Local Open Scope R_scope.

Lemma norm_le a r : 0 <= r -> dot a a <= r * r -> norm a <= r.
Proof. intros Hr H. rewrite norm_dot. rewrite <- (sqrt_square r Hr). apply sqrt_le_1_alt, H. Qed.
Lemma norm_mid a b : norm (vscale (1/2) (vadd a b)) <= Rmax (norm a) (norm b).
Proof.
  pose proof (Rmax_l (norm a) (norm b)) as Ha. pose proof (Rmax_r (norm a) (norm b)) as Hb.
  pose proof (norm_nonneg a). pose proof (norm_nonneg b). set (m := Rmax _ _) in *.
  apply norm_le; [lra|].
  assert (A : dot a a <= m * m) by (rewrite <- norm_sq; nra). assert (B : dot b b <= m * m) by (rewrite <- norm_sq; nra).
  pose proof (dot_self_nonneg (vsub a b)) as S.
  assert (E : dot (vscale (1/2) (vadd a b)) (vscale (1/2) (vadd a b)) = (dot a a + dot b b) / 2 - dot (vsub a b) (vsub a b) / 4)
    by (unfold dot, vsub, vadd, vscale; simpl; field).
  rewrite E. lra.
Qed.
Lemma dist3_sym a b : dist3 a b = dist3 b a.
Proof. unfold dist3. apply norm_eq. unfold dot, vsub; simpl; ring. Qed.
Lemma norm_add_le a b : norm (vadd a b) <= norm a + norm b.
Proof.
  pose proof (norm_nonneg a). pose proof (norm_nonneg b). apply norm_le; [lra|].
  assert (C : dot a b <= norm a * norm b).
  { destruct (Rle_dec (dot a b) 0); [nra|]. apply Rsqr_incr_0_var; [|nra]. unfold Rsqr.
    replace (norm a * norm b * (norm a * norm b)) with ((norm a * norm a) * (norm b * norm b)) by ring. rewrite !norm_sq.
    pose proof (dot_self_nonneg (cross a b)) as S. rewrite lagrange in S. lra. }
  replace (dot (vadd a b) (vadd a b)) with (dot a a + dot b b + 2 * dot a b) by (unfold dot, vadd; simpl; ring).
  rewrite <- !norm_sq. nra.
Qed.

(** ** Bilinear patches: rectangles, parallelograms, trapezia, and surfaces spanned by two lines *)
Definition bilinear (a b c d : vec3) (u v : R) : vec3 :=
  vadd (vadd a (vscale u b)) (vadd (vscale v c) (vscale (u * v) d)).
Lemma bilinear_u a b c d u u' v : dist3 (bilinear a b c d u v) (bilinear a b c d u' v) = Rabs (u - u') * norm (vadd b (vscale v d)).
Proof. unfold dist3, bilinear. rewrite <- norm_scale. f_equal. vec_ring. Qed.
Lemma bilinear_v a b c d u v v' : dist3 (bilinear a b c d u v) (bilinear a b c d u v') = Rabs (v - v') * norm (vadd c (vscale u d)).
Proof. unfold dist3, bilinear. rewrite <- norm_scale. f_equal. vec_ring. Qed.
Lemma line_mid c d u u' : norm (vadd c (vscale ((u + u') / 2) d)) <= Rmax (norm (vadd c (vscale u d))) (norm (vadd c (vscale u' d))).
Proof. eapply Rle_trans; [|apply norm_mid]. right. f_equal. apply vec_eq; simpl; field. Qed.
Lemma Rabs_half x : Rabs (x / 2) = Rabs x / 2.
Proof. unfold Rdiv. rewrite Rabs_mult, (Rabs_pos_eq (/ 2)) by lra. reflexivity. Qed.
Lemma half_l a b : Rabs (a - (a + b) / 2) = Rabs (a - b) / 2.
Proof. replace (a - (a + b) / 2) with ((a - b) / 2) by field. apply Rabs_half. Qed.
Lemma half_r a b : Rabs ((a + b) / 2 - b) = Rabs (a - b) / 2.
Proof. replace ((a + b) / 2 - b) with ((a - b) / 2) by field. apply Rabs_half. Qed.

Lemma Rmax_scale k a b : 0 <= k -> Rmax (k * a) (k * b) = k * Rmax a b.
Proof. intros. apply RmaxRmult. assumption. Qed.
Lemma bilinear_gentle a b c d : gentle (bilinear a b c d) (fun _ _ _ _ => True).
Proof.
  assert (CV : forall u0 u1 v0 v1, chord_v (bilinear a b c d) u0 u1 v0 v1 = Rabs (v0 - v1) * Rmax (norm (vadd c (vscale u0 d))) (norm (vadd c (vscale u1 d)))).
  { intros. unfold chord_v. rewrite !bilinear_v. apply Rmax_scale, Rabs_pos. }
  assert (CU : forall u0 u1 v0 v1, chord_u (bilinear a b c d) u0 u1 v0 v1 = Rabs (u0 - u1) * Rmax (norm (vadd b (vscale v0 d))) (norm (vadd b (vscale v1 d)))).
  { intros. unfold chord_u. rewrite !bilinear_u. apply Rmax_scale, Rabs_pos. }
  split; intros u0 u1 v0 v1 _; rewrite !CV, !CU, half_l, half_r; repeat split; try lra;
    apply Rmult_le_compat_l; try apply Rabs_pos; apply Rmax_lub; try apply Rmax_l; try apply Rmax_r; apply line_mid.
Qed.
Lemma abs_le x L a b : a <= x <= b -> Rabs a <= L -> Rabs b <= L -> Rabs x <= L.
Proof. intros H A B. unfold Rabs in *. destruct (Rcase_abs a), (Rcase_abs b), (Rcase_abs x); lra. Qed.
Lemma bilinear_lipschitz a b c d ua ub va vb : exists K, 0 <= K /\ lipschitz (bilinear a b c d) K ua ub va vb.
Proof.
  set (L := Rabs ua + Rabs ub + Rabs va + Rabs vb).
  pose proof (Rabs_pos ua). pose proof (Rabs_pos ub). pose proof (Rabs_pos va). pose proof (Rabs_pos vb).
  pose proof (norm_nonneg b). pose proof (norm_nonneg c). pose proof (norm_nonneg d).
  assert (M : forall e w, Rabs w <= L -> norm (vadd e (vscale w d)) <= norm e + L * norm d).
  { intros e w Hw. eapply Rle_trans; [apply norm_add_le|]. rewrite norm_scale. nra. }
  exists (norm b + norm c + L * norm d). split; [unfold L; nra|]. split.
  - intros u u' v Hu Hu' Hv. rewrite bilinear_u, Rmult_comm. apply Rmult_le_compat_r; [apply Rabs_pos|].
    eapply Rle_trans; [apply M|lra]. apply (abs_le v L va vb Hv); unfold L; lra.
  - intros u v v' Hu Hv Hv'. rewrite bilinear_v, Rmult_comm. apply Rmult_le_compat_r; [apply Rabs_pos|].
    eapply Rle_trans; [apply M|lra]. apply (abs_le u L ua ub Hu); unfold L; lra.
Qed.

(** ** Straight lines turned about a coordinate axis: disks, annuli, cylinders, cones *)
Definition turned (ax : axis) (k : R) (a d : vec3) (u v : R) : vec3 :=
  rodrigues (unit_of ax) (k * v) vzero (vadd a (vscale u d)).
Definition off_axis (ax : axis) (q : vec3) : vec3 := vsub q (vscale (dot q (unit_of ax)) (unit_of ax)).
Lemma chord_of_turn ax t t' q : dist3 (rodrigues (unit_of ax) t vzero q) (rodrigues (unit_of ax) t' vzero q)
  = 2 * Rabs (sin ((t - t') / 2)) * norm (off_axis ax q).
Proof.
  pose proof (norm_nonneg (off_axis ax q)) as N. pose proof (Rabs_pos (sin ((t - t') / 2))) as S.
  apply norm_unique; [nra|].
  assert (E : 2 * Rabs (sin ((t - t') / 2)) * norm (off_axis ax q) * (2 * Rabs (sin ((t - t') / 2)) * norm (off_axis ax q))
    = 2 * (2 * (Rabs (sin ((t - t') / 2)) * Rabs (sin ((t - t') / 2)))) * (norm (off_axis ax q) * norm (off_axis ax q))) by ring.
  rewrite E, norm_sq. clear E.
  assert (E : 2 * (Rabs (sin ((t - t') / 2)) * Rabs (sin ((t - t') / 2))) = 1 - cos (t - t')).
  { rewrite <- Rabs_mult, Rabs_pos_eq by nra.
    replace (cos (t - t')) with (cos (2 * ((t - t') / 2))) by (f_equal; field). rewrite cos_2a_sin. ring. }
  rewrite E, cos_minus. pose proof (sin2_cos2' t) as T. pose proof (sin2_cos2' t') as T'.
  assert (X : forall r, (2 - 2 * (cos t * cos t' + sin t * sin t')) * r =
    ((cos t - cos t') * (cos t - cos t') + (sin t - sin t') * (sin t - sin t')) * r).
  { intros r. f_equal. nra. }
  replace (2 * (1 - (cos t * cos t' + sin t * sin t'))) with (2 - 2 * (cos t * cos t' + sin t * sin t')) by ring. rewrite X.
  destruct ax; unfold off_axis, rodrigues, unit_of, ex, ey, ez, vzero, cross, dot, vsub, vscale, vadd; simpl; ring.
Qed.
Lemma sin_half x : Rabs (sin x) <= 2 * Rabs (sin (x / 2)).
Proof.
  replace (sin x) with (sin (2 * (x / 2))) by (f_equal; field). rewrite sin_2a, !Rabs_mult, (Rabs_pos_eq 2) by lra.
  pose proof (COS_bound (x / 2)) as (C1 & C2). assert (Rabs (cos (x / 2)) <= 1) by (apply Rabs_le; lra).
  pose proof (Rabs_pos (sin (x / 2))). nra.
Qed.
Lemma off_axis_mid ax a d u u' :
  norm (off_axis ax (vadd a (vscale ((u + u') / 2) d))) <=
  Rmax (norm (off_axis ax (vadd a (vscale u d)))) (norm (off_axis ax (vadd a (vscale u' d)))).
Proof.
  eapply Rle_trans; [|apply norm_mid]. right. f_equal.
  destruct ax; unfold off_axis, unit_of, ex, ey, ez, dot; apply vec_eq; simpl; field.
Qed.
Lemma turned_u ax k a d u u' v : dist3 (turned ax k a d u v) (turned ax k a d u' v) = Rabs (u - u') * norm d.
Proof.
  unfold turned. rewrite rodrigues_isometry by apply unit_of_unit. unfold dist3. rewrite <- norm_scale. f_equal. vec_ring.
Qed.
Lemma turned_v ax k a d u v v' : dist3 (turned ax k a d u v) (turned ax k a d u v')
  = 2 * Rabs (sin ((k * v - k * v') / 2)) * norm (off_axis ax (vadd a (vscale u d))).
Proof. apply chord_of_turn. Qed.
Lemma turned_gentle ax k a d : gentle (turned ax k a d) (fun _ _ _ _ => True).
Proof.
  assert (CV : forall u0 u1 v0 v1, chord_v (turned ax k a d) u0 u1 v0 v1 = 2 * Rabs (sin ((k * v0 - k * v1) / 2)) *
     Rmax (norm (off_axis ax (vadd a (vscale u0 d)))) (norm (off_axis ax (vadd a (vscale u1 d))))).
  { intros. unfold chord_v. rewrite !turned_v. apply Rmax_scale. pose proof (Rabs_pos (sin ((k * v0 - k * v1) / 2))). lra. }
  assert (CU : forall u0 u1 v0 v1, chord_u (turned ax k a d) u0 u1 v0 v1 = Rabs (u0 - u1) * norm d).
  { intros. unfold chord_u. rewrite !turned_u. apply Rmax_left. lra. }
  split; intros u0 u1 v0 v1 _; rewrite !CV, !CU.
  - set (m := Rmax _ _). assert (Hm : 0 <= m) by (unfold m; eapply Rle_trans; [apply norm_nonneg|apply Rmax_l]).
    pose proof (sin_half ((k * v0 - k * v1) / 2)) as S.
    replace ((k * v0 - k * ((v0 + v1) / 2)) / 2) with ((k * v0 - k * v1) / 2 / 2) by field.
    replace ((k * ((v0 + v1) / 2) - k * v1) / 2) with ((k * v0 - k * v1) / 2 / 2) by field.
    repeat split; try lra; nra.
  - rewrite half_l, half_r. pose proof (Rabs_pos (sin ((k * v0 - k * v1) / 2))) as S.
    repeat split; try lra; (apply Rmult_le_compat_l; [lra|]); apply Rmax_lub; try apply Rmax_l; try apply Rmax_r; apply off_axis_mid.
Qed.
Lemma sin_le_abs x : Rabs (sin x) <= Rabs x.
Proof.
  assert (G : forall x, 0 <= x -> Rabs (sin x) <= x).
  { intros y Hy. destruct (Rle_dec 1 y) as [H1|H1].
    - pose proof (SIN_bound y) as (A & B). apply Rabs_le. lra.
    - destruct (Req_dec y 0) as [->|Hne]; [rewrite sin_0, Rabs_R0; lra|].
      pose proof (sin_lt_x y ltac:(lra)). pose proof PI2_1 as HP. pose proof (sin_gt_0 y ltac:(lra) ltac:(pose proof PI_RGT_0; lra)).
      apply Rabs_le. lra. }
  destruct (Rle_dec 0 x) as [H|H].
  - rewrite (Rabs_pos_eq x) by lra. apply G. exact H.
  - rewrite <- (Rabs_Ropp x), <- (Rabs_Ropp (sin x)), <- sin_neg. rewrite (Rabs_pos_eq (- x)) by lra. apply G. lra.
Qed.
Lemma off_axis_le ax q : norm (off_axis ax q) <= norm q.
Proof.
  apply norm_le; [apply norm_nonneg|]. rewrite norm_sq.
  destruct ax; unfold off_axis, unit_of, ex, ey, ez, dot; simpl; nra.
Qed.
Lemma turned_lipschitz ax k a d ua ub va vb : exists K, 0 <= K /\ lipschitz (turned ax k a d) K ua ub va vb.
Proof.
  set (L := Rabs ua + Rabs ub).
  pose proof (Rabs_pos ua). pose proof (Rabs_pos ub). pose proof (norm_nonneg a). pose proof (norm_nonneg d). pose proof (Rabs_pos k).
  assert (HL : 0 <= L * norm d) by (apply Rmult_le_pos; unfold L; lra).
  assert (HK : 0 <= Rabs k * (norm a + L * norm d)) by (apply Rmult_le_pos; lra).
  exists (norm d + Rabs k * (norm a + L * norm d)). split; [lra|]. split.
  - intros u u' v Hu Hu' Hv. rewrite turned_u, Rmult_comm. apply Rmult_le_compat_r; [apply Rabs_pos|]. lra.
  - intros u v v' Hu Hv Hv'. rewrite turned_v.
    assert (A : norm (off_axis ax (vadd a (vscale u d))) <= norm a + L * norm d).
    { eapply Rle_trans; [apply off_axis_le|]. eapply Rle_trans; [apply norm_add_le|]. rewrite norm_scale.
      pose proof (abs_le u L ua ub Hu ltac:(unfold L; lra) ltac:(unfold L; lra)). nra. }
    pose proof (norm_nonneg (off_axis ax (vadd a (vscale u d)))) as N.
    pose proof (sin_le_abs ((k * v - k * v') / 2)) as S. pose proof (Rabs_pos (sin ((k * v - k * v') / 2))) as S0.
    assert (E : Rabs ((k * v - k * v') / 2) = Rabs k * Rabs (v - v') / 2).
    { replace ((k * v - k * v') / 2) with (k * (v - v') / 2) by field. rewrite Rabs_half, Rabs_mult. reflexivity. }
    rewrite E in S. pose proof (Rabs_pos (v - v')) as V.
    assert (X : 2 * Rabs (sin ((k * v - k * v') / 2)) <= Rabs k * Rabs (v - v')) by lra.
    apply Rle_trans with (Rabs k * Rabs (v - v') * norm (off_axis ax (vadd a (vscale u d)))); [apply Rmult_le_compat_r; [exact N|exact X]|].
    assert (0 <= Rabs k * Rabs (v - v')) by nra.
    apply Rle_trans with (Rabs k * Rabs (v - v') * (norm a + L * norm d)); [apply Rmult_le_compat_l; assumption|].
    assert (0 <= norm d * Rabs (v - v')) by nra. lra.
Qed.

(** ** Sums of two curves: extrusions along a vector or a path *)
Definition bends (q : R -> vec3) : Prop := forall a b,
  dist3 (q a) (q b) <= 2 * dist3 (q a) (q ((a + b) / 2)) /\ dist3 (q a) (q b) <= 2 * dist3 (q ((a + b) / 2)) (q b).
Definition sweep (q q' : R -> vec3) (u v : R) : vec3 := vadd (q u) (q' v).
Lemma sweep_u q q' u u' v : dist3 (sweep q q' u v) (sweep q q' u' v) = dist3 (q u) (q u').
Proof. unfold dist3, sweep. f_equal. vec_ring. Qed.
Lemma sweep_v q q' u v v' : dist3 (sweep q q' u v) (sweep q q' u v') = dist3 (q' v) (q' v').
Proof. unfold dist3, sweep. f_equal. vec_ring. Qed.
Lemma sweep_gentle q q' : bends q -> bends q' -> gentle (sweep q q') (fun _ _ _ _ => True).
Proof.
  intros H H'.
  assert (CV : forall u0 u1 v0 v1, chord_v (sweep q q') u0 u1 v0 v1 = dist3 (q' v0) (q' v1)).
  { intros. unfold chord_v. rewrite !sweep_v. apply Rmax_left. lra. }
  assert (CU : forall u0 u1 v0 v1, chord_u (sweep q q') u0 u1 v0 v1 = dist3 (q u0) (q u1)).
  { intros. unfold chord_u. rewrite !sweep_u. apply Rmax_left. lra. }
  split; intros u0 u1 v0 v1 _; rewrite !CV, !CU; repeat split; try lra; try apply H; apply H'.
Qed.
Definition slow (q : R -> vec3) (K : R) : Prop := forall a b, dist3 (q a) (q b) <= K * Rabs (a - b).
Lemma sweep_lipschitz q q' K K' ua ub va vb : 0 <= K -> 0 <= K' -> slow q K -> slow q' K' ->
  exists K, 0 <= K /\ lipschitz (sweep q q') K ua ub va vb.
Proof.
  intros HK HK' H H'. exists (K + K'). split; [lra|]. split; intros.
  - rewrite sweep_u. eapply Rle_trans; [apply H|]. apply Rmult_le_compat_r; [apply Rabs_pos|lra].
  - rewrite sweep_v. eapply Rle_trans; [apply H'|]. apply Rmult_le_compat_r; [apply Rabs_pos|lra].
Qed.
Definition along (a d : vec3) (u : R) : vec3 := vadd a (vscale u d).
Lemma along_dist a d u u' : dist3 (along a d u) (along a d u') = Rabs (u - u') * norm d.
Proof. unfold dist3, along. rewrite <- norm_scale. f_equal. vec_ring. Qed.
Lemma along_bends a d : bends (along a d).
Proof. intros x y. rewrite !along_dist, half_l, half_r. lra. Qed.
Lemma along_slow a d : slow (along a d) (norm d).
Proof. intros x y. rewrite along_dist. lra. Qed.
(** a circle of radius [r] with centre [c] in the plane of the orthonormal [e], [f] *)
Definition around (c e f : vec3) (r : R) (u : R) : vec3 :=
  vadd c (vadd (vscale (r * cos (u / r)) e) (vscale (r * sin (u / r)) f)).
Lemma around_dist c e f r u u' : 0 < r -> dot e e = 1 -> dot f f = 1 -> dot e f = 0 ->
  dist3 (around c e f r u) (around c e f r u') = 2 * r * Rabs (sin ((u - u') / (2 * r))).
Proof.
  intros Hr He Hf Hef. pose proof (Rabs_pos (sin ((u - u') / (2 * r)))) as S. apply norm_unique; [nra|].
  set (C := cos (u / r)). set (S1 := sin (u / r)). set (C' := cos (u' / r)). set (S1' := sin (u' / r)).
  assert (E : dot (vsub (around c e f r u) (around c e f r u')) (vsub (around c e f r u) (around c e f r u')) =
     r * r * ((C - C') * (C - C') * dot e e + (S1 - S1') * (S1 - S1') * dot f f + 2 * ((C - C') * (S1 - S1')) * dot e f)).
  { unfold around. fold C S1 C' S1'. unfold dot, vsub, vadd, vscale; simpl; ring. }
  rewrite E, He, Hf, Hef.
  assert (X : 2 * (Rabs (sin ((u - u') / (2 * r))) * Rabs (sin ((u - u') / (2 * r)))) = 1 - (C * C' + S1 * S1')).
  { rewrite <- Rabs_mult, Rabs_pos_eq by nra. unfold C, C', S1, S1'. rewrite <- cos_minus.
    replace (u / r - u' / r) with (2 * ((u - u') / (2 * r))) by (field; lra). rewrite cos_2a_sin. ring. }
  pose proof (sin2_cos2' (u / r)) as T. pose proof (sin2_cos2' (u' / r)) as T'. fold C S1 in T. fold C' S1' in T'.
  replace (2 * r * Rabs (sin ((u - u') / (2 * r))) * (2 * r * Rabs (sin ((u - u') / (2 * r)))))
    with (r * r * (2 * (2 * (Rabs (sin ((u - u') / (2 * r))) * Rabs (sin ((u - u') / (2 * r))))))) by ring.
  rewrite X. f_equal. nra.
Qed.
Lemma around_bends c e f r : 0 < r -> dot e e = 1 -> dot f f = 1 -> dot e f = 0 -> bends (around c e f r).
Proof.
  intros Hr He Hf Hef x y. rewrite !around_dist by assumption.
  replace ((x - (x + y) / 2) / (2 * r)) with ((x - y) / (2 * r) / 2) by (field; lra).
  replace (((x + y) / 2 - y) / (2 * r)) with ((x - y) / (2 * r) / 2) by (field; lra).
  pose proof (sin_half ((x - y) / (2 * r))) as S. nra.
Qed.
Lemma around_slow c e f r : 0 < r -> dot e e = 1 -> dot f f = 1 -> dot e f = 0 -> slow (around c e f r) 1.
Proof.
  intros Hr He Hf Hef x y. rewrite around_dist by assumption. pose proof (sin_le_abs ((x - y) / (2 * r))) as S.
  unfold Rdiv in S. rewrite Rabs_mult, (Rabs_pos_eq (/ (2 * r))) in S by (apply Rlt_le, Rinv_0_lt_compat; lra).
  apply (Rmult_le_compat_l (2 * r)) in S; [|lra].
  replace (2 * r * (Rabs (x - y) * / (2 * r))) with (1 * Rabs (x - y)) in S by (field; lra). exact S.
Qed.

(** ** The sphere *)
Definition ball (r : R) (u v : R) : vec3 := V3 (r * sin (v / r) * cos (u / r)) (r * sin (v / r) * sin (u / r)) (r * cos (v / r)).
Definition meridian (r v : R) : vec3 := V3 (r * sin (v / r)) 0 (r * cos (v / r)).
Lemma ball_turned r u v : ball r u v = rodrigues (unit_of AxisZ) (u / r) vzero (meridian r v).
Proof. unfold ball, meridian, rodrigues, unit_of, ez, vzero, cross, dot. apply vec_eq; simpl; ring. Qed.
Lemma meridian_around r v : meridian r v = around vzero ez ex r v.
Proof. unfold meridian, around, ez, ex, vzero. apply vec_eq; simpl; ring. Qed.
Lemma ball_v r u v v' : 0 < r -> dist3 (ball r u v) (ball r u v') = 2 * r * Rabs (sin ((v - v') / (2 * r))).
Proof.
  intros Hr. rewrite !ball_turned, rodrigues_isometry by apply unit_of_unit. rewrite !meridian_around.
  apply around_dist; try exact Hr; unfold dot, ez, ex; simpl; ring.
Qed.
Lemma ball_u r u u' v : 0 < r -> 0 <= v <= PI * r ->
  dist3 (ball r u v) (ball r u' v) = 2 * Rabs (sin ((u / r - u' / r) / 2)) * (r * sin (v / r)).
Proof.
  intros Hr Hv. rewrite !ball_turned, chord_of_turn. f_equal.
  assert (0 <= v / r <= PI).
  { split; [apply Rmult_le_pos; [lra|apply Rlt_le, Rinv_0_lt_compat, Hr]|].
    apply Rmult_le_reg_r with r; [exact Hr|]. unfold Rdiv. rewrite Rmult_assoc, Rinv_l by lra. lra. }
  pose proof (sin_ge_0 (v / r) ltac:(lra) ltac:(lra)).
  apply norm_unique; [nra|]. unfold off_axis, meridian, unit_of, ez, dot; simpl; ring.
Qed.
Definition hemisphere (r u0 u1 v0 v1 : R) : Prop :=
  0 <= v0 /\ v0 <= v1 /\ v1 <= PI * r /\ (v1 <= PI * r / 2 \/ PI * r / 2 <= v0).
Lemma ball_gentle r : 0 < r -> gentle (ball r) (hemisphere r).
Proof.
  intros Hr. pose proof PI_RGT_0 as HP.
  assert (CV : forall u0 u1 v0 v1, chord_v (ball r) u0 u1 v0 v1 = 2 * r * Rabs (sin ((v0 - v1) / (2 * r)))).
  { intros. unfold chord_v. rewrite !ball_v by exact Hr. apply Rmax_left. lra. }
  assert (CU : forall u0 u1 v0 v1, 0 <= v0 <= PI * r -> 0 <= v1 <= PI * r ->
     chord_u (ball r) u0 u1 v0 v1 = 2 * Rabs (sin ((u0 / r - u1 / r) / 2)) * Rmax (r * sin (v0 / r)) (r * sin (v1 / r))).
  { intros. unfold chord_u. rewrite !ball_u by assumption. apply Rmax_scale. pose proof (Rabs_pos (sin ((u0 / r - u1 / r) / 2))). lra. }
  assert (SC : forall x y, x <= y -> x / r <= y / r).
  { intros x y H. apply Rmult_le_compat_r; [apply Rlt_le, Rinv_0_lt_compat, Hr|exact H]. }
  assert (S0 : 0 / r = 0) by (unfold Rdiv; ring). assert (S1 : PI * r / r = PI) by (field; lra). assert (S2 : PI * r / 2 / r = PI / 2) by (field; lra).
  split; intros u0 u1 v0 v1 (H0 & H1 & H2 & H3).
  - rewrite !CV, !CU by lra.
    assert (M : r * sin ((v0 + v1) / 2 / r) <= Rmax (r * sin (v0 / r)) (r * sin (v1 / r))).
    { pose proof (SC 0 v0 H0) as A0. pose proof (SC v0 ((v0 + v1) / 2) ltac:(lra)) as A1. pose proof (SC ((v0 + v1) / 2) v1 ltac:(lra)) as A2.
      pose proof (SC v1 (PI * r) H2) as A3. rewrite S0 in A0. rewrite S1 in A3.
      destruct H3 as [H3|H3]; apply SC in H3; rewrite S2 in H3.
      - eapply Rle_trans; [|apply Rmax_r]. apply Rmult_le_compat_l; [lra|]. apply sin_incr_1; lra.
      - eapply Rle_trans; [|apply Rmax_l]. apply Rmult_le_compat_l; [lra|]. apply sin_decr_1; lra. }
    pose proof (sin_half ((v0 - v1) / (2 * r))) as S.
    replace ((v0 - (v0 + v1) / 2) / (2 * r)) with ((v0 - v1) / (2 * r) / 2) by (field; lra).
    replace (((v0 + v1) / 2 - v1) / (2 * r)) with ((v0 - v1) / (2 * r) / 2) by (field; lra).
    pose proof (Rabs_pos (sin ((u0 / r - u1 / r) / 2))) as P.
    split; [repeat split; try lra|]. split; [repeat split; try lra|].
    repeat split; try nra; (apply Rmult_le_compat_l; [lra|]); apply Rmax_lub; try exact M; try apply Rmax_l; apply Rmax_r.
  - rewrite !CV, !CU by lra.
    set (m := Rmax _ _). assert (Hm : 0 <= m).
    { unfold m. eapply Rle_trans; [|apply Rmax_l]. apply Rmult_le_pos; [lra|]. pose proof (SC 0 v0 H0) as A0. pose proof (SC v0 (PI * r) ltac:(lra)) as A3.
      rewrite S0 in A0. rewrite S1 in A3. apply sin_ge_0; lra. }
    pose proof (sin_half ((u0 / r - u1 / r) / 2)) as S.
    replace ((u0 / r - (u0 + u1) / 2 / r) / 2) with ((u0 / r - u1 / r) / 2 / 2) by (field; lra).
    replace (((u0 + u1) / 2 / r - u1 / r) / 2) with ((u0 / r - u1 / r) / 2 / 2) by (field; lra).
    split; [repeat split; lra|]. split; [repeat split; lra|]. repeat split; try lra; nra.
Qed.
Lemma ball_lipschitz r ua ub : 0 < r -> exists K, 0 <= K /\ lipschitz (ball r) K ua ub 0 (PI * r).
Proof.
  intros Hr. exists 1. split; [lra|]. split.
  - intros u u' v Hu Hu' Hv. rewrite ball_u by assumption.
    pose proof (sin_le_abs ((u / r - u' / r) / 2)) as S.
    assert (E : Rabs ((u / r - u' / r) / 2) = Rabs (u - u') / r / 2).
    { rewrite Rabs_half. f_equal. replace (u / r - u' / r) with ((u - u') / r) by (field; lra). unfold Rdiv. rewrite Rabs_mult.
      f_equal. apply Rabs_pos_eq, Rlt_le, Rinv_0_lt_compat, Hr. }
    rewrite E in S. pose proof (SIN_bound (v / r)) as (B1 & B2).
    assert (Hs : 0 <= sin (v / r)).
    { apply sin_ge_0; [apply Rmult_le_pos; [lra|apply Rlt_le, Rinv_0_lt_compat, Hr]|].
      apply Rmult_le_reg_r with r; [exact Hr|]. unfold Rdiv. rewrite Rmult_assoc, Rinv_l by lra. lra. }
    pose proof (Rabs_pos (sin ((u / r - u' / r) / 2))) as P. set (t := Rabs (sin ((u / r - u' / r) / 2))) in *.
    apply Rle_trans with (2 * t * (r * 1)); [apply Rmult_le_compat_l; nra|].
    apply (Rmult_le_compat_l (2 * r)) in S; [|lra].
    replace (2 * r * (Rabs (u - u') / r / 2)) with (Rabs (u - u')) in S by (field; lra). lra.
  - intros u v v' Hu Hv Hv'. rewrite !ball_turned, rodrigues_isometry by apply unit_of_unit. rewrite !meridian_around.
    apply around_slow; try exact Hr; unfold dot, ez, ex; simpl; ring.
Qed.
