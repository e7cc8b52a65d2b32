(** The elements of MatrixSpec are those of the model. *)
From Coq Require Import Reals Lra Qreals FunctionalExtensionality.
From Coquelicot Require Import Coquelicot.
From Verif Require Import Base Vec GeomModel GeomFacts Tables QuadModel FieldModel TriangleModel TriangleSpec TriangleFacts SolverModel MatrixModel MatrixSpec.
Local Open Scope R_scope.

Lemma through_cubic a b c d alpha : through a b c d alpha = cubic_coord alpha a b c d.
Proof. unfold through, cubic_coord. field. Qed.
Lemma through_derive a b c d alpha : Derive (through a b c d) alpha = cubic_deriv16 alpha a b c d / 16.
Proof.
  apply is_derive_unique. apply (is_derive_ext (fun x => cubic_coord x a b c d)); [intros x; symmetry; apply through_cubic|].
  unfold cubic_coord, cubic_deriv16. auto_derive; [exact I|]. field.
Qed.
Section Line.
  Variables p0 p1 p2 p3 : vec3.
  Let l : line4 := (p0, p1, p2, p3).
  Lemma lcurve_eq alpha : lcurve l alpha = position_radial alpha p0 p2 p3 p1.
  Proof. cbn [lcurve l]. unfold position_radial. rewrite !through_cubic. reflexivity. Qed.
  Lemma ltangent_eq alpha : ltangent l alpha = (cubic_deriv16 alpha (vx p0) (vx p2) (vx p3) (vx p1) / 16, cubic_deriv16 alpha (vz p0) (vz p2) (vz p3) (vz p1) / 16).
  Proof. unfold ltangent. rewrite <- !through_derive. reflexivity. Qed.
  Lemma lspeed_eq alpha : lspeed l alpha = jacobian_radial alpha p0 p2 p3 p1.
  Proof.
    unfold lspeed. rewrite ltangent_eq. cbn [fst snd]. unfold jacobian_radial. generalize (cubic_deriv16 alpha (vx p0) (vx p2) (vx p3) (vx p1)) (cubic_deriv16 alpha (vz p0) (vz p2) (vz p3) (vz p1)). intros x z.
    replace (1 / 16) with (sqrt (1 / 16 * (1 / 16))) by (apply sqrt_square; lra). rewrite <- sqrt_mult_alt by lra. f_equal. field.
  Qed.
  Lemma line_charge_eq : line_charge l = line_source p0 p1 p2 p3.
  Proof.
    unfold line_charge, line_source, jacobian_buffer_radial, position_buffer_radial.
    assert (E : forall xs ws, map2 (fun x w => (Q2R w * lspeed l (Q2R x), V3 (fst (lcurve l (Q2R x))) 0 (snd (lcurve l (Q2R x))))) xs ws =
      map2 (fun j rz => (j, V3 (fst rz) 0 (snd rz))) (map2 (fun x w => Q2R w * jacobian_radial (Q2R x) p0 p2 p3 p1) xs ws) (map (fun x => position_radial (Q2R x) p0 p2 p3 p1) xs)).
    { induction xs as [|x xs IH]; intros [|w ws]; try reflexivity. cbn [map2 map]. rewrite IH, lspeed_eq, lcurve_eq. reflexivity. }
    apply E.
  Qed.
  Lemma lcenter_eq : lcenter l = line_center p0 p1 p2 p3.
  Proof. apply lcurve_eq. Qed.
  Lemma lnormal_eq : lnormal l = line_normal p0 p1 p2 p3.
  Proof.
    unfold lnormal, line_normal, higher_order_normal_radial, normal_2d, lspeed. rewrite ltangent_eq. cbn [fst snd]. cbv zeta. unfold norm_2d.
    generalize (cubic_deriv16 0 (vx p0) (vx p2) (vx p3) (vx p1) / 16) (cubic_deriv16 0 (vz p0) (vz p2) (vz p3) (vz p1) / 16). intros x z. rewrite !Rminus_0_r.
    replace (z * z + - x * - x) with (x * x + z * z) by ring. reflexivity.
  Qed.
  Lemma lself_potential_eq A : lself_potential A l = self_potential_radial A p0 p1 p2 p3.
  Proof.
    unfold lself_potential, self_potential_radial. f_equal. apply functional_extensionality. intros alpha. rewrite lspeed_eq, lcurve_eq, lcenter_eq. reflexivity.
  Qed.
  Lemma lself_flux_eq A K : lself_flux A K l = self_field_dot_normal_radial A K p0 p1 p2 p3.
  Proof.
    unfold lself_flux, self_field_dot_normal_radial, field_dot_normal_radial. f_equal. apply functional_extensionality. intros alpha. rewrite lspeed_eq, lcurve_eq, lcenter_eq, lnormal_eq. reflexivity.
  Qed.
End Line.
Section Triangle.
  Variables t0 t1 t2 : vec3.
  Lemma tri_charge_eq : tri_charge (t0, t1, t2) = triangle_source t0 t1 t2.
  Proof.
    cbn [tri_charge]. unfold triangle_source, jacobian_buffer_3d, position_buffer_3d.
    assert (N : norm (cross (vsub t1 t0) (vsub t2 t0)) = 2 * buffer_area t0 t1 t2).
    { unfold buffer_area. rewrite <- Rmult_assoc. replace (2 * (1 / 2)) with 1 by field. rewrite Rmult_1_l. unfold norm, cross, vsub. cbn [vx vy vz]. f_equal. ring. }
    rewrite N. generalize quad_weights quad_b1 quad_b2. induction l as [|w ws IH]; intros [|b1 l1] [|b2 l2]; try reflexivity. cbn [map map2 combine]. rewrite IH. f_equal. f_equal; [ring|].
    unfold triangle_point. cbn [fst snd]. apply vec_eq; unfold vadd, vsub, vscale; cbn [vx vy vz]; ring.
  Qed.
  Lemma tcenter_eq : tcenter (t0, t1, t2) = triangle_mean t0 t1 t2.
  Proof. cbn [tcenter]. unfold triangle_mean. apply vec_eq; unfold vadd, vscale; cbn [vx vy vz]; field. Qed.
  Lemma tnormal_eq : tnormal (t0, t1, t2) = normal_3d t0 t1 t2.
  Proof.
    cbn [tnormal]. unfold normal_3d. cbv zeta. assert (E : cross (vsub t1 t0) (vsub t2 t0) = raw_normal_3d t0 t1 t2) by (unfold cross, vsub, raw_normal_3d; cbn [vx vy vz]; f_equal; ring).
    rewrite E. unfold vscale. apply vec_eq; cbn [vx vy vz]; unfold Rdiv; ring.
  Qed.
  Lemma tfar_eq p : tfar (t0, t1, t2) p = far p t0 t1.
  Proof. reflexivity. Qed.
End Triangle.
