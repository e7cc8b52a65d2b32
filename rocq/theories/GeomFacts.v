(** Facts about rigid motions and triangle/line kernels. *)
From Coq Require Import Reals Lra Psatz.
From Coquelicot Require Import Coquelicot.
From Verif Require Import Base BaseFacts OrientModel Vec GeomModel.
Local Open Scope R_scope.

Lemma Req0_true x : Req0 x = true <-> x = 0.
Proof. unfold Req0. destruct (Req_EM_T x 0); split; congruence. Qed.
Lemma Req0_false x : Req0 x = false <-> x <> 0.
Proof. unfold Req0. destruct (Req_EM_T x 0); split; congruence. Qed.
Lemma Rgt0_true x : Rgt0 x = true <-> 0 < x.
Proof. unfold Rgt0. destruct (Rlt_dec 0 x); split; congruence. Qed.
Lemma Rgt0_false x : Rgt0 x = false <-> x <= 0.
Proof. unfold Rgt0. destruct (Rlt_dec 0 x); split; intros; try discriminate; try reflexivity; lra. Qed.

(** The Rodrigues formula: rotation by [angle] about the axis through [origin] along the unit
    vector [k], counter clockwise when looking against [k]. *)
Definition rodrigues (k : vec3) (angle : R) (origin p : vec3) : vec3 :=
  let u := vsub p origin in
  vadd origin (vadd (vadd (vscale (cos angle) u) (vscale (sin angle) (cross k u)))
                    (vscale ((1 - cos angle) * dot k u) k)).

Inductive axis := AxisX | AxisY | AxisZ.
Definition unit_of (a : axis) : vec3 := match a with AxisX => ex | AxisY => ey | AxisZ => ez end.
(** The arguments of rotate for a rotation about one axis. *)
Definition rotate_about (a : axis) (angle : R) (origin : vec3) : result (vec3 -> result vec3) :=
  match a with
  | AxisX => rotate angle 0 0 origin
  | AxisY => rotate 0 angle 0 origin
  | AxisZ => rotate 0 0 angle origin
  end.

Ltac req0 :=
  repeat match goal with
  | |- context [Req0 0] => rewrite (proj2 (Req0_true 0) eq_refl)
  | H : ?x <> 0 |- context [Req0 ?x] => rewrite (proj2 (Req0_false x) H)
  end.

Lemma rotate_rodrigues a angle origin :
  angle <> 0 ->
  exists f, rotate_about a angle origin = Ok f /\
    forall p, f p = Ok (rodrigues (unit_of a) angle origin p).
Proof.
  intros H. destruct a; unfold rotate_about, rotate; req0; eexists; (split; [reflexivity|]);
    intros p; unfold rotation_matrix; req0; cbn [negb]; f_equal; unfold rodrigues;
    apply vec_eq; unfold mat_vec, unit_of, ex, ey, ez, cross, dot; simpl; ring.
Qed.

Lemma rotate_zero origin :
  exists f, rotate 0 0 0 origin = Ok f /\ forall p, f p = Err NameError.
Proof.
  unfold rotate. req0. eexists. split; [reflexivity|]. intros p. unfold rotation_matrix. req0. reflexivity.
Qed.

Lemma rotate_two_axes Rx Ry Rz origin :
  (Rx <> 0 /\ Ry <> 0) \/ (Rx <> 0 /\ Rz <> 0) \/ (Ry <> 0 /\ Rz <> 0) ->
  rotate Rx Ry Rz origin = Err AssertionError.
Proof.
  intros H. unfold rotate.
  destruct (Req0 Rx) eqn:EX, (Req0 Ry) eqn:EY, (Req0 Rz) eqn:EZ; try reflexivity; exfalso;
    repeat match goal with
    | H : Req0 _ = true |- _ => apply Req0_true in H
    end; tauto.
Qed.

Lemma sin2_cos2' x : sin x * sin x + cos x * cos x = 1.
Proof. pose proof (sin2_cos2 x) as H. unfold Rsqr in H. exact H. Qed.

Lemma rodrigues_isometry k angle origin p q :
  dot k k = 1 -> dist3 (rodrigues k angle origin p) (rodrigues k angle origin q) = dist3 p q.
Proof.
  intros Hk. apply norm_eq. unfold rodrigues.
  set (c := cos angle). set (s := sin angle). pose proof (sin2_cos2' angle) as Hcs. fold s c in Hcs.
  set (u := vsub p q).
  replace (vsub (vadd origin (vadd (vadd (vscale c (vsub p origin)) (vscale s (cross k (vsub p origin))))
            (vscale ((1 - c) * dot k (vsub p origin)) k)))
          (vadd origin (vadd (vadd (vscale c (vsub q origin)) (vscale s (cross k (vsub q origin))))
            (vscale ((1 - c) * dot k (vsub q origin)) k))))
    with (vadd (vadd (vscale c u) (vscale s (cross k u))) (vscale ((1 - c) * dot k u) k))
    by (apply vec_eq; unfold u, dot, cross; simpl; ring).
  assert (E : dot (vadd (vadd (vscale c u) (vscale s (cross k u))) (vscale ((1 - c) * dot k u) k))
                  (vadd (vadd (vscale c u) (vscale s (cross k u))) (vscale ((1 - c) * dot k u) k))
              = c * c * dot u u + s * s * (dot k k * dot u u - dot k u * dot k u)
                + (2 * c * (1 - c) + (1 - c) * (1 - c) * dot k k) * (dot k u * dot k u))
    by (unfold dot, cross; simpl; ring).
  rewrite E, Hk. replace (s * s) with (1 - c * c) by lra. ring.
Qed.

Lemma unit_of_unit a : dot (unit_of a) (unit_of a) = 1.
Proof. destruct a; unfold dot; simpl; ring. Qed.

Lemma rodrigues_axis k angle origin t : dot k k = 1 ->
  rodrigues k angle origin (vadd origin (vscale t k)) = vadd origin (vscale t k).
Proof.
  intros Hk. unfold rodrigues.
  replace (vsub (vadd origin (vscale t k)) origin) with (vscale t k) by vec_ring.
  replace (cross k (vscale t k)) with vzero by vec_ring.
  replace (dot k (vscale t k)) with (t * dot k k) by (unfold dot; simpl; ring). rewrite Hk. vec_ring.
Qed.

Lemma rodrigues_add k a b origin p : dot k k = 1 ->
  rodrigues k a origin (rodrigues k b origin p) = rodrigues k (a + b) origin p.
Proof.
  intros Hk. unfold rodrigues. rewrite cos_plus, sin_plus.
  set (ca := cos a); set (sa := sin a); set (cb := cos b); set (sb := sin b).
  set (u := vsub p origin).
  replace (vsub (vadd origin (vadd (vadd (vscale cb u) (vscale sb (cross k u)))
             (vscale ((1 - cb) * dot k u) k))) origin)
    with (vadd (vadd (vscale cb u) (vscale sb (cross k u))) (vscale ((1 - cb) * dot k u) k)) by vec_ring.
  set (w := vadd (vadd (vscale cb u) (vscale sb (cross k u))) (vscale ((1 - cb) * dot k u) k)).
  assert (Hdot : dot k w = dot k u).
  { unfold w. replace (dot k (vadd (vadd (vscale cb u) (vscale sb (cross k u))) (vscale ((1 - cb) * dot k u) k)))
      with (cb * dot k u + sb * dot k (cross k u) + (1 - cb) * dot k u * dot k k)
      by (unfold dot, cross; simpl; ring).
    rewrite Hk, cross_dot_l. ring. }
  assert (Hcross : cross k w = vadd (vscale cb (cross k u)) (vscale sb (vsub (vscale (dot k u) k) u))).
  { unfold w.
    assert (E : forall z, vsub (vscale (dot k u) k) (vscale (dot k k) u) = z -> cross k (cross k u) = z)
      by (intros z <-; apply vec_eq; unfold dot, cross; simpl; ring).
    rewrite Hk in E. specialize (E _ eq_refl).
    replace (cross k (vadd (vadd (vscale cb u) (vscale sb (cross k u))) (vscale ((1 - cb) * dot k u) k)))
      with (vadd (vscale cb (cross k u)) (vscale sb (cross k (cross k u))))
      by (apply vec_eq; unfold dot, cross; simpl; ring).
    rewrite E. vec_ring. }
  rewrite Hdot, Hcross. unfold w. vec_ring.
Qed.

Lemma rodrigues_0 k origin p : rodrigues k 0 origin p = p.
Proof. unfold rodrigues. rewrite cos_0, sin_0. vec_ring. Qed.

(** ** Triangles *)
Lemma triangle_area_dist a b c :
  triangle_area a b c =
  sqrt (dist3 b a ^ 2 * dist3 c a ^ 2 - ((dist3 b a ^ 2 + dist3 c a ^ 2 - dist3 b c ^ 2) / 2) ^ 2) / 2.
Proof.
  unfold triangle_area. rewrite norm_dot, lagrange. do 2 f_equal.
  pose proof (dot_dist a b c) as H.
  replace (dot (vsub b a) (vsub c a)) with ((dist3 b a ^ 2 + dist3 c a ^ 2 - dist3 b c ^ 2) / 2)
    by (simpl; lra).
  rewrite <- !dist_sq. simpl. ring.
Qed.

Lemma triangle_area_isometry (f : vec3 -> vec3) a b c :
  (forall p q, dist3 (f p) (f q) = dist3 p q) ->
  triangle_area (f a) (f b) (f c) = triangle_area a b c.
Proof. intros H. rewrite !triangle_area_dist, !H. reflexivity. Qed.

Lemma triangle_area_swap a b c : triangle_area a c b = triangle_area a b c.
Proof. unfold triangle_area. f_equal. apply norm_eq. unfold dot, cross; simpl; ring. Qed.
Lemma triangle_area_cycle a b c : triangle_area b c a = triangle_area a b c.
Proof. unfold triangle_area. f_equal. apply norm_eq. unfold dot, cross; simpl; ring. Qed.

Lemma raw_normal_cross a b c : raw_normal_3d a b c = cross (vsub b a) (vsub c a).
Proof. vec_ring. Qed.
Lemma normal_scale a b c :
  normal_3d a b c = vscale (/ norm (raw_normal_3d a b c)) (raw_normal_3d a b c).
Proof. apply vec_eq; simpl; unfold Rdiv; ring. Qed.

Lemma area_normal a b c : norm (raw_normal_3d a b c) = 2 * triangle_area a b c.
Proof. rewrite raw_normal_cross. unfold triangle_area. field. Qed.

Lemma normal_unit a b c : triangle_area a b c <> 0 -> norm (normal_3d a b c) = 1.
Proof.
  intros H. rewrite normal_scale, norm_scale. pose proof (area_normal a b c) as E.
  assert (0 < norm (raw_normal_3d a b c)).
  { pose proof (norm_nonneg (raw_normal_3d a b c)). lra. }
  rewrite Rabs_pos_eq; [field; lra|]. left. apply Rinv_0_lt_compat; assumption.
Qed.
Lemma normal_orth a b c :
  dot (normal_3d a b c) (vsub b a) = 0 /\ dot (normal_3d a b c) (vsub c a) = 0 /\
  dot (normal_3d a b c) (vsub c b) = 0.
Proof.
  rewrite normal_scale, raw_normal_cross. set (k := / _).
  repeat split; unfold dot, cross; simpl; ring.
Qed.
Lemma normal_flip a b c : normal_3d a c b = vneg (normal_3d a b c).
Proof.
  rewrite !normal_scale.
  replace (raw_normal_3d a c b) with (vneg (raw_normal_3d a b c)) by vec_ring.
  replace (norm (vneg (raw_normal_3d a b c))) with (norm (raw_normal_3d a b c))
    by (apply norm_eq; unfold dot; simpl; ring).
  vec_ring.
Qed.
(** The normal is right handed with respect to the vertex order. *)
Lemma normal_right_handed a b c : triangle_area a b c <> 0 ->
  cross (vsub b a) (vsub c a) = vscale (2 * triangle_area a b c) (normal_3d a b c).
Proof.
  intros H. rewrite normal_scale, area_normal, raw_normal_cross.
  apply vec_eq; simpl; field; assumption.
Qed.

(** ** Cubic elements *)
Lemma cubic_nodes w1 w2 w3 w4 :
  cubic_coord (-1) w1 w2 w3 w4 = w1 /\ cubic_coord (-1/3) w1 w2 w3 w4 = w2 /\
  cubic_coord (1/3) w1 w2 w3 w4 = w3 /\ cubic_coord 1 w1 w2 w3 w4 = w4.
Proof. unfold cubic_coord. repeat split; field. Qed.
Lemma cubic_derivable w1 w2 w3 w4 alpha :
  is_derive (fun t => cubic_coord t w1 w2 w3 w4) alpha (cubic_deriv16 alpha w1 w2 w3 w4 / 16).
Proof.
  unfold cubic_coord, cubic_deriv16. auto_derive; [exact I|]. field.
Qed.
