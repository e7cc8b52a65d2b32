(** Displacements along the axis and the kernels of radial problems; fields of charges carried along. *)
From Coq Require Import Reals Lra.
From Verif Require Import Base BaseFacts Vec GeomModel QuadModel FieldModel TriangleModel SolverModel MatrixModel MotionModel MotionFacts.
Local Open Scope R_scope.

Lemma axis_isometry d : isometry (along_axis d).
Proof. intros p q. unfold dist3. f_equal. vec_ring. Qed.
Lemma axis_proper d : proper (along_axis d).
Proof. intros o a b c. unfold triple. f_equal; [|vec_ring]. f_equal; vec_ring. Qed.
Lemma axis_carried d p v : carried (along_axis d) p v = v.
Proof. unfold carried. vec_ring. Qed.
Lemma axis_lin d v : lin (along_axis d) v = v.
Proof. unfold lin. vec_ring. Qed.

(** ** Fields of moved charges *)
Lemma evaluate_moved T K K' cs : (forall q, K' (T q) = K q) -> evaluate K' (moved_charges T cs) = evaluate K cs.
Proof.
  intros H. unfold evaluate, moved_charges. cbn [q_items]. rewrite map_map. f_equal. apply map_ext. intros [q s]. cbn [fst snd].
  rewrite (source_sum_moved T K K' s H). reflexivity.
Qed.
Lemma iso_potential_3d T p cs : isometry T -> potential_3d (T p) (moved_charges T cs) = potential_3d p cs.
Proof. intros Iso. apply evaluate_moved. intros q. apply iso_point, Iso. Qed.
Definition field_source (p : vec3) (s : source) : vec3 :=
  V3 (- source_sum (dx1_potential_3d_point p) s) (- source_sum (dy1_potential_3d_point p) s) (- source_sum (dz1_potential_3d_point p) s).
Lemma field_source_cons p j q s : field_source p ((j, q) :: s) = vadd (vscale (- j / (4 * PI * norm (vsub q p) ^ 3)) (vsub q p)) (field_source p s).
Proof. apply vec_eq; unfold field_source, source_sum, dx1_potential_3d_point, dy1_potential_3d_point, dz1_potential_3d_point; simpl; unfold Rdiv; ring. Qed.
Lemma lin_zero T : lin T vzero = vzero.
Proof. unfold lin. vec_ring. Qed.
Lemma field_source_nil p : field_source p [] = vzero.
Proof. unfold field_source, source_sum. vec_ring. Qed.
Lemma field_3d_nil p r : field_3d p (mkcharges r []) = vzero.
Proof. unfold field_3d, evaluate. vec_ring. Qed.
Lemma iso_field_source T p s : isometry T -> field_source (T p) (moved_source T s) = lin T (field_source p s).
Proof.
  intros Iso. induction s as [|[j q] s IH]; [change (moved_source T []) with (@nil (R * vec3)); rewrite !field_source_nil, lin_zero; reflexivity|].
  change (moved_source T ((j, q) :: s)) with ((j, T q) :: moved_source T s). rewrite !field_source_cons, IH, (lin_add T Iso), (lin_scale T Iso), (lin_diff T Iso), (lin_norm T Iso). reflexivity.
Qed.
Lemma field_3d_cons p r q s l : field_3d p (mkcharges r ((q, s) :: l)) = vadd (vscale q (field_source p s)) (field_3d p (mkcharges r l)).
Proof. apply vec_eq; unfold field_3d, field_source, evaluate; simpl; ring. Qed.
Lemma iso_field_3d T p cs : isometry T -> field_3d (T p) (moved_charges T cs) = lin T (field_3d p cs).
Proof.
  intros Iso. destruct cs as [r items]. induction items as [|[q s] l IH]; [change (moved_charges T (mkcharges r [])) with (mkcharges r []); rewrite !field_3d_nil, lin_zero; reflexivity|].
  change (moved_charges T (mkcharges r ((q, s) :: l))) with (mkcharges r ((q, moved_source T s) :: q_items (moved_charges T (mkcharges r l)))).
  rewrite !field_3d_cons. change (mkcharges r (q_items (moved_charges T (mkcharges r l)))) with (moved_charges T (mkcharges r l)).
  rewrite IH, (iso_field_source T p s Iso), (lin_add T Iso), (lin_scale T Iso). reflexivity.
Qed.

(** ** Rings only see differences of heights *)
Lemma axis_ring d r0 z0 r z : potential_radial_ring r0 (z0 + d) r (z + d) = potential_radial_ring r0 z0 r z.
Proof. unfold potential_radial_ring. replace (z + d - (z0 + d)) with (z - z0) by ring. reflexivity. Qed.
Lemma axis_dr1 d r0 z0 r z : dr1_potential_radial_ring r0 (z0 + d) r (z + d) = dr1_potential_radial_ring r0 z0 r z.
Proof. unfold dr1_potential_radial_ring. replace (z + d - (z0 + d)) with (z - z0) by ring. reflexivity. Qed.
Lemma axis_dz1 d r0 z0 r z : dz1_potential_radial_ring r0 (z0 + d) r (z + d) = dz1_potential_radial_ring r0 z0 r z.
Proof. unfold dz1_potential_radial_ring. replace (z + d - (z0 + d)) with (z - z0) by ring. reflexivity. Qed.
Lemma axis_current d r0 z0 r z : current_field_radial_ring r0 (z0 + d) r (z + d) = current_field_radial_ring r0 z0 r z.
Proof. unfold current_field_radial_ring. replace (z0 + d - (z + d)) with (z0 - z) by ring. reflexivity. Qed.
Lemma axis_flux_ring d n K r0 z0 r z : field_dot_normal_radial n K r0 (z0 + d) r (z + d) = field_dot_normal_radial n K r0 z0 r z.
Proof. unfold field_dot_normal_radial. rewrite axis_dr1, axis_dz1. reflexivity. Qed.

Lemma axis_potential_radial d p cs : potential_radial (along_axis d p) (moved_charges (along_axis d) cs) = potential_radial p cs.
Proof. apply evaluate_moved. intros q. cbn [along_axis vx vy vz]. apply axis_ring. Qed.
Lemma axis_field_radial d p cs : field_radial (along_axis d p) (moved_charges (along_axis d) cs) = field_radial p cs.
Proof.
  unfold field_radial, from_cylinder. cbn [along_axis vx vy vz].
  rewrite (evaluate_moved _ (fun q => dr1_potential_radial_ring (norm_2d (vx p) (vy p)) (vz p) (vx q) (vz q))) by (intros q; apply axis_dr1).
  rewrite (evaluate_moved _ (fun q => dz1_potential_radial_ring (norm_2d (vx p) (vy p)) (vz p) (vx q) (vz q))) by (intros q; apply axis_dz1). reflexivity.
Qed.
Lemma axis_current_field d p cs : current_field (along_axis d p) (moved_charges (along_axis d) cs) = current_field p cs.
Proof.
  unfold current_field, from_cylinder. cbn [along_axis vx vy vz].
  rewrite (evaluate_moved _ (fun q => fst (current_field_radial_ring (norm_2d (vx p) (vy p)) (vz p) (vx q) (vz q)))) by (intros q; cbn [along_axis vx vz]; rewrite axis_current; reflexivity).
  rewrite (evaluate_moved _ (fun q => snd (current_field_radial_ring (norm_2d (vx p) (vy p)) (vz p) (vx q) (vz q)))) by (intros q; cbn [along_axis vx vz]; rewrite axis_current; reflexivity). reflexivity.
Qed.

(** ** Lines *)
Lemma axis_coord d a w1 w2 w3 w4 : cubic_coord a (w1 + d) (w2 + d) (w3 + d) (w4 + d) = cubic_coord a w1 w2 w3 w4 + d.
Proof. unfold cubic_coord. field. Qed.
Lemma axis_deriv d a w1 w2 w3 w4 : cubic_deriv16 a (w1 + d) (w2 + d) (w3 + d) (w4 + d) = cubic_deriv16 a w1 w2 w3 w4.
Proof. unfold cubic_deriv16. ring. Qed.
Section Lines.
Context (d : R).
Notation T := (along_axis d).
Lemma axis_position a p0 p1 p2 p3 : position_radial a (T p0) (T p1) (T p2) (T p3) = (fst (position_radial a p0 p1 p2 p3), snd (position_radial a p0 p1 p2 p3) + d).
Proof. unfold position_radial. cbn [along_axis vx vz fst snd]. rewrite axis_coord. reflexivity. Qed.
Lemma axis_jacobian a p0 p1 p2 p3 : jacobian_radial a (T p0) (T p1) (T p2) (T p3) = jacobian_radial a p0 p1 p2 p3.
Proof. unfold jacobian_radial. cbn [along_axis vx vz]. rewrite axis_deriv. reflexivity. Qed.
Lemma axis_normal p0 p1 p2 p3 : line_normal (T p0) (T p1) (T p2) (T p3) = line_normal p0 p1 p2 p3.
Proof. unfold line_normal, higher_order_normal_radial. cbn [along_axis vx vz]. rewrite axis_deriv. reflexivity. Qed.
Lemma axis_line_center p0 p1 p2 p3 : line_center (T p0) (T p1) (T p2) (T p3) = (fst (line_center p0 p1 p2 p3), snd (line_center p0 p1 p2 p3) + d).
Proof. apply axis_position. Qed.
Lemma axis_line_source p0 p1 p2 p3 : line_source (T p0) (T p1) (T p2) (T p3) = moved_source T (line_source p0 p1 p2 p3).
Proof.
  unfold line_source, moved_source. rewrite <- map2_map. unfold jacobian_buffer_radial, position_buffer_radial.
  assert (J : forall xs ws, map2 (fun x w => Q2R w * jacobian_radial (Q2R x) (T p0) (T p2) (T p3) (T p1)) xs ws = map2 (fun x w => Q2R w * jacobian_radial (Q2R x) p0 p2 p3 p1) xs ws)
    by (intros xs; apply map2_ext; intros a b; rewrite axis_jacobian; reflexivity).
  rewrite J. generalize (map2 (fun x w => Q2R w * jacobian_radial (Q2R x) p0 p2 p3 p1) Tables.gauss_points Tables.gauss_weights). generalize Tables.gauss_points.
  induction l as [|x l IH]; intros [|j js]; cbn [map2 map]; [reflexivity..|]. rewrite axis_position, IH. reflexivity.
Qed.
Lemma axis_potential_entry A b p0 p1 p2 p3 q0 q1 q2 q3 :
  radial_potential_entry A b (T p0) (T p1) (T p2) (T p3) (T q0) (T q1) (T q2) (T q3) = radial_potential_entry A b p0 p1 p2 p3 q0 q1 q2 q3.
Proof.
  unfold radial_potential_entry. destruct b.
  - unfold self_potential_radial. f_equal. apply FunctionalExtensionality.functional_extensionality. intros a. rewrite axis_position, axis_line_center, axis_jacobian. cbn [fst snd]. rewrite axis_ring. reflexivity.
  - rewrite axis_line_center, axis_line_source. cbv zeta. cbn [fst snd]. apply source_sum_moved. intros q. apply axis_ring.
Qed.
Lemma axis_flux_entry A K b p0 p1 p2 p3 q0 q1 q2 q3 :
  radial_flux_entry A K b (T p0) (T p1) (T p2) (T p3) (T q0) (T q1) (T q2) (T q3) = radial_flux_entry A K b p0 p1 p2 p3 q0 q1 q2 q3.
Proof.
  unfold radial_flux_entry. destruct b.
  - f_equal. unfold self_field_dot_normal_radial. f_equal. apply FunctionalExtensionality.functional_extensionality. intros a. rewrite axis_position, axis_line_center, axis_jacobian, axis_normal. cbn [fst snd]. rewrite axis_flux_ring. reflexivity.
  - rewrite axis_line_center, axis_line_source, axis_normal. cbv zeta. cbn [fst snd]. apply source_sum_moved. intros q. apply axis_flux_ring.
Qed.
End Lines.
