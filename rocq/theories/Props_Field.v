(** Property theorems about fields: C34, C49. *)
From Coq Require Import Reals Lra Lia Psatz.
From Coquelicot Require Import Coquelicot.
From Verif Require Import Base BaseFacts Vec GeomModel OutwardFacts FieldModel FieldFacts SeriesModel DispatchModel Field3DFacts TracingModel TracingFacts.
Local Open Scope R_scope.

(** ** C34 Electric field is minus the gradient of the potential *)
(** In three dimensions: the derivative of the potential along every line through a point off the charges is minus the component of the
    field along that line, and the field has no divergence there. *)
Theorem C34_gradient f p : b_class f = Field3D_BEM ->
  (off_charges (b_elec f) p -> gradient (electrostatic_potential_at_point f) p (vneg (electrostatic_field_at_point f p)) /\ divergence (electrostatic_field_at_point f) p 0) /\
  (off_charges (b_mag f) p -> gradient (magnetostatic_potential_at_point f) p (vneg (magnetostatic_field_at_point f p)) /\ divergence (magnetostatic_field_at_point f) p 0).
Proof.
  intros C. unfold electrostatic_potential_at_point, electrostatic_field_at_point, magnetostatic_potential_at_point, magnetostatic_field_at_point. rewrite C.
  split; intros O; (split; [apply field_is_gradient|apply field_divergence]); exact O.
Qed.
Print Assumptions C34_gradient.
(** Both are linear in the charges: for the charges of one geometry (the same quadrature points), any numbers of fields and any weights. *)
Theorem C34_linear (w1 w2 : R) (sources : list source) (c1 c2 : list R) r p :
  length c1 = length sources -> length c2 = length sources ->
  let of q := mkcharges r (combine q sources) in
  potential_3d p (of (map2 (fun a b => w1 * a + w2 * b) c1 c2)) = w1 * potential_3d p (of c1) + w2 * potential_3d p (of c2) /\
  field_3d p (of (map2 (fun a b => w1 * a + w2 * b) c1 c2)) = vadd (vscale w1 (field_3d p (of c1))) (vscale w2 (field_3d p (of c2))).
Proof.
  intros L1 L2 of. assert (G : forall K, evaluate K (of (map2 (fun a b => w1 * a + w2 * b) c1 c2)) = w1 * evaluate K (of c1) + w2 * evaluate K (of c2)).
  { intros K. unfold evaluate, of. cbn [q_items]. revert c1 c2 L1 L2. induction sources as [|s l IH]; intros [|a c1] [|b c2] L1 L2; try discriminate; cbn [map2 combine map fst snd Rsum fold_right]; [cbn; ring|].
    specialize (IH c1 c2 ltac:(cbn in L1; lia) ltac:(cbn in L2; lia)). unfold Rsum in *. cbn [fold_right]. rewrite IH. ring. }
  unfold potential_3d, field_3d. split; [apply G|]. rewrite !G. apply vec_eq; cbn; ring.
Qed.
Print Assumptions C34_linear.
Example C34_nonvacuous : exists f, b_class f = Field3D_BEM /\ off_charges (b_elec f) (V3 1 0 0) /\ electrostatic_field_at_point f (V3 1 0 0) = V3 (1 / (4 * PI)) 0 0.
Proof.
  exists (mkbem Field3D_BEM (mkcharges TRIANGLE_RULE [(1, [(1, vzero)])]) empty_3d empty_3d None). split; [reflexivity|]. pose proof PI_RGT_0.
  assert (N : norm (vsub vzero (V3 1 0 0)) = 1) by (apply norm_unique; [lra|unfold dot, vsub; cbn; ring]). split.
  - intros x jp [<-|[]] [<-|[]]. cbn. intros E. injection E; lra.
  - unfold electrostatic_field_at_point, field_3d, evaluate, source_sum. cbn [b_class b_elec q_items map fst snd]. unfold dx1_potential_3d_point, dy1_potential_3d_point, dz1_potential_3d_point. rewrite N.
    apply vec_eq; cbn; field; lra.
Qed.

(** ** C49 Field bounds *)
Definition outside (lo hi p : vec3) : Prop := vx p < vx lo \/ vx hi < vx p \/ vy p < vy lo \/ vy hi < vy p \/ vz p < vz lo \/ vz hi < vz p.
Definition strictly_inside (lo hi p : vec3) : Prop := vx lo < vx p < vx hi /\ vy lo < vy p < vy hi /\ vz lo < vz p < vz hi.
(** The property is false: direct evaluation never looks at the bounds... *)
Theorem C49_evaluation_refuted f lo hi p :
  electrostatic_field_at_point (set_bounds f lo hi) p = electrostatic_field_at_point f p /\ magnetostatic_field_at_point (set_bounds f lo hi) p = magnetostatic_field_at_point f p /\
  electrostatic_potential_at_point (set_bounds f lo hi) p = electrostatic_potential_at_point f p /\ magnetostatic_potential_at_point (set_bounds f lo hi) p = magnetostatic_potential_at_point f p.
Proof. repeat split. Qed.
Print Assumptions C49_evaluation_refuted.
(** ... nor does the tracer of a three-dimensional field... *)
Theorem C49_three_d_tracer_refuted f lo hi s : b_class f = Field3D_BEM -> tracer_field (set_bounds f lo hi) s = tracer_field f s.
Proof. intros C. unfold tracer_field, set_bounds. cbn [b_class]. rewrite C. reflexivity. Qed.
Print Assumptions C49_three_d_tracer_refuted.
Definition unit_charge_3d : bem := mkbem Field3D_BEM (mkcharges TRIANGLE_RULE [(1, [(1, vzero)])]) empty_3d empty_3d None.
Lemma ellipem1_1 : 0 < ellipem1 1.
Proof.
  assert (L : ln (1 / 1) = 0) by (replace (1 / 1) with 1 by field; exact ln_1).
  unfold ellipem1, chebyshev. rewrite L. cbn [combine arange seq map fst snd Rsum fold_right]. rewrite !pow1. lra.
Qed.
(** ... and there are fields with a non-zero value outside of their bounds, in evaluation and in tracing, for both kinds of geometry: the
    tracer of a radially symmetric field ignores the bounds in z. *)
Theorem C49_refuted :
  (exists f lo hi p, b_class f = Field3D_BEM /\ outside lo hi p /\ electrostatic_field_at_point (set_bounds f lo hi) p <> vzero /\ tracer_field (set_bounds f lo hi) (mkstate p vzero) <> Ok vzero) /\
  (exists f lo hi p, b_class f = FieldRadialBEM /\ outside lo hi p /\ electrostatic_field_at_point (set_bounds f lo hi) p <> vzero /\ tracer_field (set_bounds f lo hi) (mkstate p vzero) <> Ok vzero).
Proof.
  pose proof PI_RGT_0 as Hpi. split.
  - assert (N : norm (vsub vzero (V3 2 0 0)) = 2) by (apply norm_unique; [lra|unfold dot, vsub; cbn; ring]).
    assert (E : vx (field_3d (V3 2 0 0) (b_elec unit_charge_3d)) <> 0).
    { unfold field_3d, evaluate, source_sum, unit_charge_3d. cbn [vx b_elec q_items map fst snd]. unfold dx1_potential_3d_point. rewrite N. cbn [vx vzero Rsum fold_right].
      replace (- (1 * (1 * ((0 - 2) / (4 * PI * 2 ^ 3)) + 0) + 0)) with (1 / (16 * PI)) by (field; lra). apply Rgt_not_eq. apply Rdiv_lt_0_compat; lra. }
    exists unit_charge_3d, (V3 (-1) (-1) (-1)), (V3 1 1 1), (V3 2 0 0). split; [reflexivity|]. split; [right; left; cbn; lra|]. split.
    + change (field_3d (V3 2 0 0) (b_elec unit_charge_3d) <> vzero). intros Z. apply E. rewrite Z. reflexivity.
    + intros Z. apply E. unfold tracer_field, field_3d_traceable in Z. cbn [b_class set_bounds unit_charge_3d s_pos s_vel] in Z.
      assert (G : forall a b : vec3, Ok a = Ok b -> vx a = vx b) by (intros a b [= ->]; reflexivity). apply G in Z. unfold combine_elec_magnetic_field in Z.
      cbn [vx vy vz vadd cross vscale vzero b_elec set_bounds unit_charge_3d field_3d] in Z. rewrite !Rmult_0_l in Z. unfold field_3d, unit_charge_3d. cbn [b_elec vx]. lra.
  - set (q := mkcharges LINE_RULE [(1, [(1, V3 1 0 0)])]).
    assert (n0 : norm_2d 0 0 = 0) by (unfold norm_2d; replace (0 * 0 + 0 * 0) with 0 by ring; exact sqrt_0).
    assert (E : vz (field_radial (V3 0 0 2) q) <> 0).
    { unfold field_radial, from_cylinder. cbn [vx vy vz]. rewrite n0. destruct (Rle_dec MIN_DISTANCE_AXIS 0) as [B|_]; [unfold MIN_DISTANCE_AXIS in B; lra|]. cbn [vz].
      unfold evaluate, source_sum, q. cbn [q_items map fst snd vx vz Rsum fold_right]. unfold dz1_potential_radial_ring.
      replace (((0 - 2) * (0 - 2) + (1 - 0) * (1 - 0)) / (4 * 0 * 0 + 4 * (1 - 0) * 0 + (0 - 2) * (0 - 2) + (1 - 0) * (1 - 0))) with 1 by field.
      replace (4 * 0 * 0 + 4 * (1 - 0) * 0 + (0 - 2) * (0 - 2) + (1 - 0) * (1 - 0)) with 5 by ring.
      assert (S5 : 0 < sqrt 5) by (apply sqrt_lt_R0; lra). pose proof ellipem1_1 as P.
      replace (- _) with (2 * ellipem1 1 / (PI * (5 * sqrt 5))) by (field; split; lra). apply Rgt_not_eq. apply Rdiv_lt_0_compat; [lra|]. apply Rmult_lt_0_compat; lra. }
    exists (radial_bem q empty_2d empty_3d), (V3 (-1) (-1) (-1)), (V3 1 1 1), (V3 0 0 2). split; [reflexivity|]. split; [do 5 right; cbn; lra|]. split.
    + change (field_radial (V3 0 0 2) q <> vzero). intros Z. apply E. rewrite Z. reflexivity.
    + intros Z. apply E. unfold tracer_field, field_radial_traceable in Z. cbn [b_class set_bounds radial_bem s_pos s_vel b_bounds vx vy b_elec b_mag b_cur] in Z.
      rewrite (proj2 (ltb_true (-1) 0)), (proj2 (ltb_true 0 1)) in Z by lra. cbn [andb] in Z. assert (G : forall a b : vec3, Ok a = Ok b -> vz a = vz b) by (intros a b [= ->]; reflexivity). apply G in Z. unfold combine_elec_magnetic_field in Z. cbn [vx vy vz vadd cross vscale vzero] in Z. rewrite !Rmult_0_l in Z. lra.
Qed.
Print Assumptions C49_refuted.
(** What holds: while tracing in a radially symmetric field the bounds in x and y restrict the force to zero outside, and do not change it inside. *)
Theorem C49_radial_tracer_partial f lo hi s : b_class f = FieldRadialBEM -> b_bounds f = None ->
  (strictly_inside lo hi (s_pos s) -> tracer_field (set_bounds f lo hi) s = tracer_field f s) /\
  (vx (s_pos s) < vx lo \/ vx hi < vx (s_pos s) \/ vy (s_pos s) < vy lo \/ vy hi < vy (s_pos s) -> tracer_field (set_bounds f lo hi) s = Ok vzero).
Proof.
  intros C B. unfold tracer_field, set_bounds. cbn [b_class]. rewrite C. unfold field_radial_traceable. rewrite B. cbn [b_bounds b_elec b_mag b_cur]. split.
  - intros (X & Y & _). rewrite !(proj2 (ltb_true _ _)) by lra. reflexivity.
  - intros H. replace (ltb _ _ && _ && _ && _) with false; [reflexivity|]. symmetry.
    destruct H as [H|[H|[H|H]]].
    + assert (E : ltb (vx lo) (vx (s_pos s)) = false) by (unfold ltb; destruct (Rlt_dec _ _); [lra|reflexivity]). rewrite E. reflexivity.
    + assert (E : ltb (vx (s_pos s)) (vx hi) = false) by (unfold ltb; destruct (Rlt_dec _ _); [lra|reflexivity]). rewrite E, andb_false_r. reflexivity.
    + assert (E : ltb (vy lo) (vy (s_pos s)) = false) by (unfold ltb; destruct (Rlt_dec _ _); [lra|reflexivity]). rewrite E, andb_false_r. reflexivity.
    + assert (E : ltb (vy (s_pos s)) (vy hi) = false) by (unfold ltb; destruct (Rlt_dec _ _); [lra|reflexivity]). rewrite E, andb_false_r. reflexivity.
Qed.
Print Assumptions C49_radial_tracer_partial.
