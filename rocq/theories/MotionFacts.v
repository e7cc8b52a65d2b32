(** Facts about rigid motions and the kernels of the backend. *)
From Coq Require Import Reals Lra FunctionalExtensionality.
From Verif Require Import Base Float64 OrientModel MeshModel Vec GeomModel QuadModel ExcitationModel FieldModel TriangleModel SolverModel MatrixModel MotionModel.
Local Open Scope R_scope.

(** ** The linear part *)
Definition lin (T : vec3 -> vec3) (v : vec3) : vec3 := vsub (T v) (T vzero).
Section Motion.
Context (T : vec3 -> vec3) (Iso : isometry T).
Notation L := (lin T).
Lemma iso_dot o a b : dot (vsub (T a) (T o)) (vsub (T b) (T o)) = dot (vsub a o) (vsub b o).
Proof. pose proof (dot_dist (T o) (T a) (T b)) as H. pose proof (dot_dist o a b) as G. rewrite !Iso in H. lra. Qed.
Lemma vsub_0 a : vsub a vzero = a.
Proof. vec_ring. Qed.
Lemma lin_dot a b : dot (L a) (L b) = dot a b.
Proof. unfold lin. rewrite iso_dot, !vsub_0. reflexivity. Qed.
Lemma zero_of_dot a : dot a a = 0 -> a = vzero.
Proof. intros H. apply norm_zero. rewrite norm_dot, H. apply sqrt_0. Qed.
Lemma vsub_zero a b : vsub a b = vzero -> a = b.
Proof. intros H. apply vec_eq; [apply (f_equal vx) in H|apply (f_equal vy) in H|apply (f_equal vz) in H]; simpl in H; lra. Qed.
Lemma dot_expand a b c d e f : dot (vsub (vsub a b) c) (vsub (vsub d e) f) =
  dot a d - dot a e - dot a f - dot b d + dot b e + dot b f - dot c d + dot c e + dot c f.
Proof. unfold dot; simpl; ring. Qed.
Lemma lin_sub a b : L (vsub a b) = vsub (L a) (L b).
Proof.
  assert (Z : vsub (vsub (L a) (L b)) (L (vsub a b)) = vzero).
  { apply zero_of_dot. rewrite dot_expand, !lin_dot. unfold dot; simpl; ring. }
  symmetry. apply vsub_zero, Z.
Qed.
Lemma lin_diff a b : vsub (T a) (T b) = L (vsub a b).
Proof. rewrite lin_sub. unfold lin. vec_ring. Qed.
Lemma lin_scale k a : L (vscale k a) = vscale k (L a).
Proof.
  apply vsub_zero, zero_of_dot.
  replace (dot (vsub (L (vscale k a)) (vscale k (L a))) (vsub (L (vscale k a)) (vscale k (L a))))
    with (dot (L (vscale k a)) (L (vscale k a)) - 2 * k * dot (L (vscale k a)) (L a) + k * k * dot (L a) (L a)) by (unfold dot; simpl; ring).
  rewrite !lin_dot. unfold dot; simpl; ring.
Qed.
Lemma lin_neg a : L (vneg a) = vneg (L a).
Proof. replace (vneg a) with (vscale (-1) a) by vec_ring. rewrite lin_scale. vec_ring. Qed.
Lemma lin_add a b : L (vadd a b) = vadd (L a) (L b).
Proof. replace (vadd a b) with (vsub a (vneg b)) by vec_ring. rewrite lin_sub, lin_neg. vec_ring. Qed.
Lemma lin_norm a : norm (L a) = norm a.
Proof. apply norm_eq, lin_dot. Qed.
Lemma lin_carried p v : carried T p v = L v.
Proof. unfold carried. rewrite lin_diff. f_equal. vec_ring. Qed.
Lemma lin_at p v : T (vadd p v) = vadd (T p) (L v).
Proof. rewrite <- (lin_carried p v). unfold carried. vec_ring. Qed.
Lemma iso_inj a b : T a = T b -> a = b.
Proof.
  intros H. apply vsub_zero, norm_zero. fold (dist3 a b). rewrite <- Iso, H. unfold dist3. apply norm_zero. vec_ring.
Qed.
Lemma lin_normalize a : normalize_3d (L a) = L (normalize_3d a).
Proof.
  unfold normalize_3d. rewrite lin_norm. cbv zeta.
  replace (V3 (vx a / norm a) (vy a / norm a) (vz a / norm a)) with (vscale (/ norm a) a) by (apply vec_eq; simpl; unfold Rdiv; ring).
  rewrite lin_scale. apply vec_eq; simpl; unfold Rdiv; ring.
Qed.
(** Triple products keep their square; for a proper motion they stay as they are. *)
Lemma lin_cross_sq a b : dot (cross (L a) (L b)) (cross (L a) (L b)) = dot (cross a b) (cross a b).
Proof. rewrite !lagrange, !lin_dot. reflexivity. Qed.
Lemma lin_cross : proper T -> forall a b, cross (L a) (L b) = L (cross a b).
Proof.
  intros Pr a b. apply vsub_zero, zero_of_dot.
  replace (dot (vsub (cross (L a) (L b)) (L (cross a b))) (vsub (cross (L a) (L b)) (L (cross a b))))
    with (dot (cross (L a) (L b)) (cross (L a) (L b)) - 2 * dot (cross (L a) (L b)) (L (cross a b)) + dot (L (cross a b)) (L (cross a b))) by (unfold dot; simpl; ring).
  rewrite lin_cross_sq, lin_dot. pose proof (Pr vzero a b (cross a b)) as H. unfold triple in H. rewrite !vsub_0 in H. fold (L a) (L b) (L (cross a b)) in H. rewrite H. ring.
Qed.
(** A double cross product needs no orientation. *)
Lemma double_cross a b c : cross (cross a b) c = vsub (vscale (dot a c) b) (vscale (dot b c) a).
Proof. unfold dot; vec_ring. Qed.
Lemma lin_double_cross a b c : cross (cross (L a) (L b)) (L c) = L (cross (cross a b) c).
Proof. rewrite !double_cross, !lin_dot, lin_sub, !lin_scale. reflexivity. Qed.
Lemma lin_triple_sq a b c : dot (cross (L a) (L b)) (L c) * dot (cross (L a) (L b)) (L c) = dot (cross a b) c * dot (cross a b) c.
Proof.
  assert (G : forall u v w : vec3, dot (cross u v) w * dot (cross u v) w = dot (cross u v) (cross u v) * dot w w - dot (cross (cross u v) w) (cross (cross u v) w))
    by (intros; rewrite (lagrange (cross u v) w); ring).
  rewrite !G, lin_double_cross, lin_cross_sq, !lin_dot. reflexivity.
Qed.

(** ** Triangles *)
Lemma iso_x_axis v0 v1 : x_axis (T v0) (T v1) = L (x_axis v0 v1).
Proof. unfold x_axis. rewrite lin_diff, lin_normalize. reflexivity. Qed.
Lemma iso_z_axis : proper T -> forall v0 v1 v2, z_axis (T v0) (T v1) (T v2) = L (z_axis v0 v1 v2).
Proof. intros Pr v0 v1 v2. unfold z_axis. rewrite !lin_diff, lin_cross, lin_normalize by exact Pr. reflexivity. Qed.
Lemma normalize_eq a : normalize_3d a = vscale (/ norm a) a.
Proof. unfold normalize_3d. apply vec_eq; simpl; unfold Rdiv; ring. Qed.
Lemma cross_scale_l k a b : cross (vscale k a) b = vscale k (cross a b).
Proof. vec_ring. Qed.
Lemma iso_cross_norm a b : norm (cross (L a) (L b)) = norm (cross a b).
Proof. apply norm_eq, lin_cross_sq. Qed.
Lemma iso_y_axis v0 v1 v2 : y_axis (T v0) (T v1) (T v2) = L (y_axis v0 v1 v2).
Proof.
  unfold y_axis, z_axis. rewrite iso_x_axis, !lin_diff, !normalize_eq, iso_cross_norm, !cross_scale_l, lin_double_cross, lin_scale. reflexivity.
Qed.
Lemma dot_scale_l k a b : dot (vscale k a) b = k * dot a b.
Proof. unfold dot; simpl; ring. Qed.
Lemma iso_normalized_z v0 v1 v2 t : nt_z (normalized (T v0) (T v1) (T v2) (T t)) * nt_z (normalized (T v0) (T v1) (T v2) (T t)) =
  nt_z (normalized v0 v1 v2 t) * nt_z (normalized v0 v1 v2 t).
Proof.
  cbn [nt_z normalized]. unfold normalized, nt_z, z_axis. cbv zeta. rewrite !lin_diff, !normalize_eq, iso_cross_norm, !dot_scale_l.
  generalize (/ norm (cross (vsub v1 v0) (vsub v2 v0))). intros k. pose proof (lin_triple_sq (vsub v1 v0) (vsub v2 v0) (vsub v0 t)) as H.
  transitivity (k * k * (dot (cross (L (vsub v1 v0)) (L (vsub v2 v0))) (L (vsub v0 t)) * dot (cross (L (vsub v1 v0)) (L (vsub v2 v0))) (L (vsub v0 t)))); [ring|]. rewrite H. ring.
Qed.
Lemma iso_normalized v0 v1 v2 t : let n := normalized v0 v1 v2 t in let n' := normalized (T v0) (T v1) (T v2) (T t) in
  nt_x0 n' = nt_x0 n /\ nt_y0 n' = nt_y0 n /\ nt_a n' = nt_a n /\ nt_b n' = nt_b n /\ nt_c n' = nt_c n.
Proof. cbn [normalized nt_x0 nt_y0 nt_a nt_b nt_c]. cbv zeta. cbn. rewrite iso_x_axis, iso_y_axis, !lin_diff, !lin_dot, lin_norm. repeat split; reflexivity. Qed.
Lemma iso_normalized_proper : proper T -> forall v0 v1 v2 t, normalized (T v0) (T v1) (T v2) (T t) = normalized v0 v1 v2 t.
Proof. intros Pr v0 v1 v2 t. unfold normalized. rewrite iso_x_axis, iso_y_axis, (iso_z_axis Pr), !lin_diff, !lin_dot, lin_norm. reflexivity. Qed.

Lemma iso_potential_triangle integrate v0 v1 v2 t :
  potential_triangle integrate (T v0) (T v1) (T v2) (T t) = potential_triangle integrate v0 v1 v2 t.
Proof.
  unfold potential_triangle. destruct (iso_normalized v0 v1 v2 t) as (E1 & E2 & E3 & E4 & E5). rewrite E5. f_equal. apply functional_extensionality. intros y.
  unfold potential_integrand, nt_xmin, nt_xmax. rewrite iso_normalized_z, E1, E2, E3, E4, E5. reflexivity.
Qed.
Lemma iso_flux_triangle integrate : proper T -> forall v0 v1 v2 t n,
  flux_triangle integrate (T v0) (T v1) (T v2) (T t) (L n) = flux_triangle integrate v0 v1 v2 t n.
Proof. intros Pr v0 v1 v2 t n. unfold flux_triangle. rewrite (iso_normalized_proper Pr), iso_x_axis, iso_y_axis, (iso_z_axis Pr), !lin_dot. reflexivity. Qed.

Lemma normal_3d_eq t0 t1 t2 : normal_3d t0 t1 t2 = normalize_3d (cross (vsub t1 t0) (vsub t2 t0)).
Proof. unfold normal_3d, normalize_3d. replace (raw_normal_3d t0 t1 t2) with (cross (vsub t1 t0) (vsub t2 t0)) by (apply vec_eq; simpl; ring). reflexivity. Qed.
Lemma iso_normal_3d : proper T -> forall t0 t1 t2, normal_3d (T t0) (T t1) (T t2) = L (normal_3d t0 t1 t2).
Proof. intros Pr t0 t1 t2. rewrite !normal_3d_eq, !lin_diff, lin_cross, lin_normalize by exact Pr. reflexivity. Qed.

(** Affine combinations *)
Lemma iso_affine o u v a b : T (vadd o (vadd (vscale a (vsub u o)) (vscale b (vsub v o)))) = vadd (T o) (vadd (vscale a (vsub (T u) (T o))) (vscale b (vsub (T v) (T o)))).
Proof. rewrite lin_at, lin_add, !lin_scale, !lin_diff. reflexivity. Qed.
Lemma iso_position_3d a b t0 t1 t2 : position_3d a b (T t0) (T t1) (T t2) = T (position_3d a b t0 t1 t2).
Proof.
  assert (G : forall u0 u1 u2, position_3d a b u0 u1 u2 = vadd u0 (vadd (vscale a (vsub u1 u0)) (vscale b (vsub u2 u0)))) by (intros; vec_ring).
  rewrite !G, iso_affine. reflexivity.
Qed.
Lemma iso_center t0 t1 t2 : triangle_center (T t0) (T t1) (T t2) = T (triangle_center t0 t1 t2).
Proof. apply iso_position_3d. Qed.
Lemma iso_mean t0 t1 t2 : triangle_mean (T t0) (T t1) (T t2) = T (triangle_mean t0 t1 t2).
Proof.
  assert (G : forall u0 u1 u2, triangle_mean u0 u1 u2 = triangle_center u0 u1 u2) by (intros; unfold triangle_mean, triangle_center, position_3d; apply vec_eq; simpl; field).
  rewrite !G. apply iso_center.
Qed.

(** ** Charges *)
Lemma combine_moved (js : list R) ps : combine js (map T ps) = moved_source T (combine js ps).
Proof. unfold moved_source. revert ps. induction js as [|j js IH]; intros [|p ps]; cbn; [reflexivity..|]. rewrite IH. reflexivity. Qed.
Lemma map2_map {A B C D} (g : C -> D) (f : A -> B -> C) l : forall m, map2 (fun a b => g (f a b)) l m = map g (map2 f l m).
Proof. induction l as [|a l IH]; intros [|b m]; cbn; [reflexivity..|]. rewrite IH. reflexivity. Qed.
Lemma map2_ext {A B C} (f g : A -> B -> C) l : (forall a b, f a b = g a b) -> forall m, map2 f l m = map2 g l m.
Proof. intros H. induction l as [|a l IH]; intros [|b m]; cbn; [reflexivity..|]. rewrite H, IH. reflexivity. Qed.
Lemma iso_triangle_source t0 t1 t2 : triangle_source (T t0) (T t1) (T t2) = moved_source T (triangle_source t0 t1 t2).
Proof.
  unfold triangle_source. rewrite <- combine_moved. f_equal.
  - assert (G : forall a b c, buffer_area a b c = 1 / 2 * norm (cross (vsub b a) (vsub c a))).
    { intros a b c. unfold buffer_area, norm. do 2 f_equal. simpl. ring. }
    unfold jacobian_buffer_3d. rewrite !G, !lin_diff, iso_cross_norm. reflexivity.
  - unfold position_buffer_3d. rewrite <- map2_map. apply map2_ext. intros a b. apply (iso_position_3d (Q2R a) (Q2R b)).
Qed.
Lemma source_sum_moved K K' s : (forall q, K' (T q) = K q) -> source_sum K' (moved_source T s) = source_sum K s.
Proof. intros H. unfold source_sum, moved_source. rewrite map_map. f_equal. apply map_ext. intros [j q]. cbn. rewrite H. reflexivity. Qed.
Lemma iso_point p q : potential_3d_point (T p) (T q) = potential_3d_point p q.
Proof. unfold potential_3d_point. rewrite lin_diff, lin_norm. reflexivity. Qed.
Lemma field_dot_eq n p q : field_dot_normal_3d n p q = - dot n (vsub q p) / (4 * PI * norm (vsub q p) ^ 3).
Proof. unfold field_dot_normal_3d, dx1_potential_3d_point, dy1_potential_3d_point, dz1_potential_3d_point, dot, Rdiv. simpl. ring. Qed.
Lemma iso_field_dot n p q : field_dot_normal_3d (L n) (T p) (T q) = field_dot_normal_3d n p q.
Proof. rewrite !field_dot_eq, lin_diff, lin_dot, lin_norm. reflexivity. Qed.
Lemma iso_far t a b : far (T t) (T a) (T b) = far t a b.
Proof. unfold far. rewrite !Iso. reflexivity. Qed.

(** ** The matrix in three dimensions *)
Lemma iso_potential_entry A d t0 t1 t2 s0 s1 s2 :
  potential_entry_3d A d (T t0) (T t1) (T t2) (T s0) (T s1) (T s2) = potential_entry_3d A d t0 t1 t2 s0 s1 s2.
Proof.
  unfold potential_entry_3d. rewrite iso_center, iso_far, iso_triangle_source, iso_potential_triangle.
  destruct (negb d && far (triangle_center t0 t1 t2) s0 s1); [|reflexivity]. apply source_sum_moved. intros q. apply iso_point.
Qed.
Lemma iso_flux_entry A K d : proper T -> forall t0 t1 t2 s0 s1 s2,
  flux_entry_3d A K d (T t0) (T t1) (T t2) (T s0) (T s1) (T s2) = flux_entry_3d A K d t0 t1 t2 s0 s1 s2.
Proof.
  intros Pr t0 t1 t2 s0 s1 s2. unfold flux_entry_3d. rewrite iso_center, iso_far, iso_triangle_source, (iso_normal_3d Pr), (iso_flux_triangle _ Pr).
  cbv zeta. destruct d; [reflexivity|]. destruct (far (triangle_center t0 t1 t2) s0 s1); [|reflexivity]. apply source_sum_moved. intros q. rewrite iso_field_dot. reflexivity.
Qed.
End Motion.
