(** Facts about operators on fields. *)
From Coq Require Import Reals Lra.
From Verif Require Import Base BaseFacts Float64 MeshModel Vec GeomModel OutwardFacts ExcitationModel FieldModel FieldFacts SolverModel SolverFacts SeriesModel DispatchModel.
Local Open Scope R_scope.

(** What the constructors and the solver build. *)
Definition bem_wf (f : bem) : Prop :=
  match b_class f with
  | FieldRadialBEM => q_rule (b_elec f) = LINE_RULE /\ q_rule (b_mag f) = LINE_RULE /\ q_rule (b_cur f) = TRIANGLE_RULE
  | Field3D_BEM => q_rule (b_elec f) = TRIANGLE_RULE /\ q_rule (b_mag f) = TRIANGLE_RULE /\ q_rule (b_cur f) = TRIANGLE_RULE
  end.
Lemma charges_add_rule a b c : charges_add a b = Ok c -> q_rule c = q_rule a.
Proof. unfold charges_add. destruct (_ && _); [intros H; injection H as <-; reflexivity|]. destruct (rule_eqb _ _); [|discriminate]. intros H. injection H as <-. reflexivity. Qed.
Lemma current_charges_rule nu e c : current_charges nu e = Ok c -> q_rule c = TRIANGLE_RULE.
Proof.
  unfold current_charges. destruct (arows _); [intros H; injection H as <-; reflexivity|]. destruct (negb _); [intros H; injection H as <-; reflexivity|].
  intros H. apply bind_ok in H. destruct H as (t & _ & H). apply bind_ok in H. destruct H as (p & _ & H). injection H as <-. reflexivity.
Qed.
Lemma is_2d_3d m : is_2d m = negb (is_3d m).
Proof.
  unfold is_2d, is_3d. induction (m_points m) as [|p l IH]; [reflexivity|]. simpl. rewrite IH. destruct (f64_eqb (py p) 0%Z); reflexivity.
Qed.
Lemma electrostatic_field_wf m c f : q_rule c = mesh_rule m -> electrostatic_field m c = Ok f -> bem_wf f.
Proof.
  unfold electrostatic_field, mesh_rule, three_d_bem. rewrite is_2d_3d. destruct (is_3d m); cbn; intros Hr; [rewrite Hr|]; intros H; injection H as <-; cbn; auto.
Qed.
Lemma magnetostatic_field_wf m cs c f : q_rule c = mesh_rule m -> q_rule cs = TRIANGLE_RULE -> magnetostatic_field m cs c = Ok f -> bem_wf f.
Proof.
  unfold magnetostatic_field, mesh_rule, three_d_bem. rewrite is_2d_3d. destruct (is_3d m); cbn; intros Hr Hc; [rewrite Hr|]; intros H; injection H as <-; cbn; auto.
Qed.
Lemma solve_matrix_rule nu s tf F g : solve_matrix nu s tf [F] = Ok [g] -> exists c, q_rule c = mesh_rule (e_mesh (s_exc s)) /\ tf c = Ok g.
Proof.
  unfold solve_matrix. destruct (s_vertices s) as [|v vs].
  - cbn. intros H. apply bind_ok in H. destruct H as (x & Hx & H). injection H as <-. eexists. split; [|exact Hx]. reflexivity.
  - intros H. apply bind_ok in H. destruct H as (u & _ & H). apply bind_ok in H. destruct H as (u2 & _ & H). cbn [mapM] in H.
    apply bind_ok in H. destruct H as (y & Hy & H). injection H as <-. apply bind_ok in Hy. destruct Hy as (x & _ & Hy). eexists. split; [|exact Hy]. reflexivity.
Qed.
Lemma new_solver_exc nu act e s : new_solver nu act e = Ok s -> s_exc s = e.
Proof.
  unfold new_solver. intros H. apply bind_ok in H. destruct H as ([v n] & _ & H). apply bind_ok in H. destruct H as (el & _ & H).
  apply bind_ok in H. destruct H as (u & _ & H). apply bind_ok in H. destruct H as (u2 & _ & H). injection H as <-. reflexivity.
Qed.
Lemma solve_electrostatic_wf nu e f : solve_electrostatic nu e = Ok f -> bem_wf f.
Proof.
  unfold solve_electrostatic. intros H. apply bind_ok in H. destruct H as (s & Hs & H). apply bind_ok in H. destruct H as (fs & Hf & H).
  destruct (solve_matrix_single _ _ _ _ _ Hf) as (g0 & ->). cbn in H. injection H as ->. apply solve_matrix_rule in Hf. destruct Hf as (c & Hc & Hg).
  rewrite (new_solver_exc _ _ _ _ Hs) in Hc. exact (electrostatic_field_wf _ _ _ Hc Hg).
Qed.
Lemma solve_magnetostatic_wf nu e f : solve_magnetostatic nu e = Ok f -> bem_wf f.
Proof.
  unfold solve_magnetostatic. intros H. apply bind_ok in H. destruct H as (s & Hs & H). apply bind_ok in H. destruct H as (cs & Hcs & H). apply bind_ok in H. destruct H as (fs & Hf & H).
  destruct (solve_matrix_single _ _ _ _ _ Hf) as (g0 & ->). cbn in H. injection H as ->. apply solve_matrix_rule in Hf. destruct Hf as (c & Hc & Hg).
  rewrite (new_solver_exc _ _ _ _ Hs) in Hc. exact (magnetostatic_field_wf _ _ _ _ Hc (current_charges_rule _ _ _ Hcs) Hg).
Qed.
Lemma bem_add_wf f g h : bem_wf f -> bem_add f g = Ok h -> bem_wf h.
Proof.
  unfold bem_add. intros W H. apply bind_ok in H. destruct H as (e & He & H). apply bind_ok in H. destruct H as (m & Hm & H). apply bind_ok in H. destruct H as (c & Hc & H).
  apply charges_add_rule in He. apply charges_add_rule in Hm. apply charges_add_rule in Hc. unfold bem_wf in *. destruct (b_class f); [|discriminate]. injection H as <-. cbn.
  destruct W as (A & B & C). repeat split; congruence.
Qed.
Lemma solve_direct_wf nu o third e f : solve_direct nu o third e = Ok f -> bem_wf f.
Proof.
  unfold solve_direct. intros H. apply bind_ok in H. destruct H as (e1 & _ & H). apply bind_ok in H. destruct H as (u & _ & H).
  destruct (_ && _).
  - apply bind_ok in H. destruct H as (f1 & H1 & H). apply bind_ok in H. destruct H as (f2 & H2 & H). apply (bem_add_wf _ _ _ (solve_electrostatic_wf _ _ _ H1) H).
  - destruct (is_electrostatic e1); [apply solve_electrostatic_wf in H|apply solve_magnetostatic_wf in H]; exact H.
Qed.

(** ** Addition of radial fields *)
Lemma potential_radial_add p a b c : charges_add a b = Ok c -> potential_radial p c = potential_radial p a + potential_radial p b.
Proof. intros H. apply charges_add_evaluate. exact H. Qed.
Lemma field_radial_add p a b c : charges_add a b = Ok c -> field_radial p c = vadd (field_radial p a) (field_radial p b).
Proof.
  intros H. rewrite (superposes_field_radial _ _ p (superposes_add _ _ _ H)). cbn. destruct (field_radial p a), (field_radial p b). unfold vadd, vscale, vzero; cbn. f_equal; ring.
Qed.
Lemma current_field_add p a b c : charges_add a b = Ok c -> current_field p c = vadd (current_field p a) (current_field p b).
Proof.
  intros H. rewrite (superposes_current_field _ _ p (superposes_add _ _ _ H)). cbn. destruct (current_field p a), (current_field p b). unfold vadd, vscale, vzero; cbn. f_equal; ring.
Qed.
Lemma radial_add f g : b_class f = FieldRadialBEM -> b_class g = FieldRadialBEM -> bem_wf f -> bem_wf g ->
  exists h, bem_add f g = Ok h /\ b_class h = FieldRadialBEM /\ forall p,
    electrostatic_potential_at_point h p = electrostatic_potential_at_point f p + electrostatic_potential_at_point g p /\
    magnetostatic_potential_at_point h p = magnetostatic_potential_at_point f p + magnetostatic_potential_at_point g p /\
    electrostatic_field_at_point h p = vadd (electrostatic_field_at_point f p) (electrostatic_field_at_point g p) /\
    magnetostatic_field_at_point h p = vadd (magnetostatic_field_at_point f p) (magnetostatic_field_at_point g p).
Proof.
  intros Cf Cg Wf Wg. unfold bem_wf in *. rewrite Cf in Wf. rewrite Cg in Wg. destruct Wf as (F1 & F2 & F3), Wg as (G1 & G2 & G3).
  destruct (charges_add_defined (b_elec f) (b_elec g) ltac:(congruence)) as (e & He & _).
  destruct (charges_add_defined (b_mag f) (b_mag g) ltac:(congruence)) as (m & Hm & _).
  destruct (charges_add_defined (b_cur f) (b_cur g) ltac:(congruence)) as (c & Hc & _).
  exists (radial_bem e m c). split; [unfold bem_add; rewrite He, Hm, Hc, Cf; reflexivity|]. split; [reflexivity|]. intros p.
  unfold electrostatic_potential_at_point, magnetostatic_potential_at_point, electrostatic_field_at_point, magnetostatic_field_at_point. rewrite Cf, Cg.
  cbn [b_class radial_bem b_elec b_mag b_cur]. rewrite (potential_radial_add p _ _ _ He), (potential_radial_add p _ _ _ Hm), (field_radial_add p _ _ _ He), (field_radial_add p _ _ _ Hm), (current_field_add p _ _ _ Hc).
  split; [reflexivity|]. split; [reflexivity|]. split; [reflexivity|].
  destruct (field_radial p (b_mag f)), (field_radial p (b_mag g)), (current_field p (b_cur f)), (current_field p (b_cur g)). unfold vadd; cbn. f_equal; ring.
Qed.

(** ** Series are linear in the coefficients *)
Lemma poly_at_add a b d : poly_at (poly6_add a b) d = poly_at a d + poly_at b d.
Proof. destruct a as [[[[[a0 a1] a2] a3] a4] a5], b as [[[[[b0 b1] b2] b3] b4] b5]. cbn -[pow]. ring. Qed.
Lemma poly_at_scale k a d : poly_at (poly6_scale k a) d = k * poly_at a d.
Proof. destruct a as [[[[[a0 a1] a2] a3] a4] a5]. cbn -[pow]. ring. Qed.
Lemma np_get_map2 {A B C} (f : A -> B -> C) a : forall b i x y, np_get a i = Ok x -> np_get b i = Ok y -> np_get (map2 f a b) i = Ok (f x y).
Proof.
  unfold np_get. induction a as [|a0 a IH]; intros [|b0 b] [|i] x y Hx Hy; cbn in *; try discriminate.
  - congruence.
  - apply IH; assumption.
Qed.
Lemma np_get_map {A B} (f : A -> B) a i x : np_get a i = Ok x -> np_get (map f a) i = Ok (f x).
Proof. rewrite !np_get_ok, nth_error_map. intros ->. reflexivity. Qed.
Lemma series_derivs_add zs a b z u v : series_derivs zs a z = Ok u -> series_derivs zs b z = Ok v ->
  match u, v with
  | None, None => series_derivs zs (table_add a b) z = Ok None
  | Some du, Some dv => exists d, series_derivs zs (table_add a b) z = Ok (Some d) /\ forall i, d i = du i + dv i
  | _, _ => False
  end.
Proof.
  unfold series_derivs. destruct (np_get zs 0) as [z0|] eqn:E0; [|discriminate]. cbn [bind]. destruct (np_get zs (length zs - 1)) as [zl|]; [|discriminate]. cbn [bind].
  destruct (Rle_dec z0 z); [|intros H1 H2; injection H1 as <-; injection H2 as <-; reflexivity].
  destruct (Rle_dec z zl); [|intros H1 H2; injection H1 as <-; injection H2 as <-; reflexivity].
  destruct (np_get zs 1) as [z1|]; [|discriminate]. cbn [bind]. set (ix := series_index zs z0 z1 z). destruct (np_get zs ix) as [zi|]; [|discriminate]. cbn [bind].
  intros H1 H2. apply bind_ok in H1. destruct H1 as (ra & Ha & H1). injection H1 as <-. apply bind_ok in H2. destruct H2 as (rb & Hb & H2). injection H2 as <-.
  unfold table_add. rewrite (np_get_map2 _ _ _ _ _ _ Ha Hb). cbn [bind]. eexists. split; [reflexivity|]. intros i. cbv beta. apply poly_at_add.
Qed.
Lemma series_derivs_scale zs a z k u : series_derivs zs a z = Ok u ->
  match u with
  | None => series_derivs zs (table_scale k a) z = Ok None
  | Some du => exists d, series_derivs zs (table_scale k a) z = Ok (Some d) /\ forall i, d i = k * du i
  end.
Proof.
  unfold series_derivs. destruct (np_get zs 0) as [z0|] eqn:E0; [|discriminate]. cbn [bind]. destruct (np_get zs (length zs - 1)) as [zl|]; [|discriminate]. cbn [bind].
  destruct (Rle_dec z0 z); [|intros H1; injection H1 as <-; reflexivity].
  destruct (Rle_dec z zl); [|intros H1; injection H1 as <-; reflexivity].
  destruct (np_get zs 1) as [z1|]; [|discriminate]. cbn [bind]. set (ix := series_index zs z0 z1 z). destruct (np_get zs ix) as [zi|]; [|discriminate]. cbn [bind].
  intros H1. apply bind_ok in H1. destruct H1 as (ra & Ha & H1). injection H1 as <-.
  assert (E : np_get (table_scale k a) ix = Ok (fun i => poly6_scale k (ra i))).
  { unfold table_scale. apply (np_get_map (fun (row : nat -> poly6) i => poly6_scale k (row i))). exact Ha. }
  rewrite E. cbn [bind]. eexists. split; [reflexivity|]. intros i. cbv beta. apply poly_at_scale.
Qed.
Lemma potential_series_lin d d1 d2 k1 k2 r : (forall i, d i = k1 * d1 i + k2 * d2 i) -> potential_series d r = k1 * potential_series d1 r + k2 * potential_series d2 r.
Proof. intros H. unfold potential_series. rewrite !H. ring. Qed.
Lemma field_series_lin d d1 d2 k1 k2 p : (forall i, d i = k1 * d1 i + k2 * d2 i) -> field_series d p = vadd (vscale k1 (field_series d1 p)) (vscale k2 (field_series d2 p)).
Proof. intros H. unfold field_series, vadd, vscale. rewrite !H. cbn [vx vy vz]. f_equal; ring. Qed.
Lemma potential_derivs_add p zs a b u v : potential_radial_derivs p zs a = Ok u -> potential_radial_derivs p zs b = Ok v -> potential_radial_derivs p zs (table_add a b) = Ok (u + v).
Proof.
  unfold potential_radial_derivs. intros H1 H2. apply bind_ok in H1. destruct H1 as (da & Ha & H1). injection H1 as <-. apply bind_ok in H2. destruct H2 as (db & Hb & H2). injection H2 as <-.
  pose proof (series_derivs_add _ _ _ _ _ _ Ha Hb) as Q. destruct da as [da|], db as [db|]; try contradiction.
  - destruct Q as (d & E & Hd). rewrite E. cbn [bind]. f_equal. rewrite (potential_series_lin d da db 1 1) by (intros i; rewrite Hd; ring). ring.
  - rewrite Q. cbn. f_equal. ring.
Qed.
Lemma potential_derivs_scale p zs a k u : potential_radial_derivs p zs a = Ok u -> potential_radial_derivs p zs (table_scale k a) = Ok (k * u).
Proof.
  unfold potential_radial_derivs. intros H1. apply bind_ok in H1. destruct H1 as (da & Ha & H1). injection H1 as <-.
  pose proof (series_derivs_scale _ _ _ k _ Ha) as Q. destruct da as [da|].
  - destruct Q as (d & E & Hd). rewrite E. cbn [bind]. f_equal. rewrite (potential_series_lin d da da k 0) by (intros i; rewrite Hd; ring). ring.
  - rewrite Q. cbn. f_equal. ring.
Qed.
Lemma field_derivs_add p zs a b u v : field_radial_derivs p zs a = Ok u -> field_radial_derivs p zs b = Ok v -> field_radial_derivs p zs (table_add a b) = Ok (vadd u v).
Proof.
  unfold field_radial_derivs. intros H1 H2. apply bind_ok in H1. destruct H1 as (da & Ha & H1). injection H1 as <-. apply bind_ok in H2. destruct H2 as (db & Hb & H2). injection H2 as <-.
  pose proof (series_derivs_add _ _ _ _ _ _ Ha Hb) as Q. destruct da as [da|], db as [db|]; try contradiction.
  - destruct Q as (d & E & Hd). rewrite E. cbn [bind]. f_equal. rewrite (field_series_lin d da db 1 1) by (intros i; rewrite Hd; ring).
    destruct (field_series da p), (field_series db p). unfold vadd, vscale; cbn. f_equal; ring.
  - rewrite Q. cbn. unfold vadd, vzero; cbn. f_equal. f_equal; ring.
Qed.
Lemma field_derivs_scale p zs a k u : field_radial_derivs p zs a = Ok u -> field_radial_derivs p zs (table_scale k a) = Ok (vscale k u).
Proof.
  unfold field_radial_derivs. intros H1. apply bind_ok in H1. destruct H1 as (da & Ha & H1). injection H1 as <-.
  pose proof (series_derivs_scale _ _ _ k _ Ha) as Q. destruct da as [da|].
  - destruct Q as (d & E & Hd). rewrite E. cbn [bind]. f_equal. rewrite (field_series_lin d da da k 0) by (intros i; rewrite Hd; ring).
    destruct (field_series da p). unfold vadd, vscale; cbn. f_equal; ring.
  - rewrite Q. cbn. unfold vscale, vzero; cbn. f_equal. f_equal; ring.
Qed.
