(** Property theorems about the equations the solved charges satisfy: C61, C62. *)
From Coq Require Import Reals Lra Sorted.
From Verif Require Import Base BaseFacts Float64 OrientModel MeshModel MeshSpec MeshFacts MeshOps MeshMisc MeshExamples Vec GeomModel QuadModel OutwardFacts
  ExcitationModel ExcitationFacts FieldModel FieldFacts TriangleModel SolverModel Props_Excitation SolverFacts Props_Solver MatrixModel MatrixSpec MatrixSpecFacts MatrixFacts.
Local Open Scope R_scope.

Lemma planar m : is_2d m = true -> is_3d m = false.
Proof. unfold is_2d, is_3d. induction (m_points m) as [|p l IH]; [reflexivity|]. cbn [forallb existsb]. intros H. apply andb_prop in H. destruct H as [-> H]. apply IH. exact H. Qed.
Lemma not_planar m : is_3d m = true -> is_2d m = false.
Proof. intros H. destruct (is_2d m) eqn:E; [|reflexivity]. rewrite (planar m E) in H. discriminate. Qed.
Lemma electrostatic_rhs_nth s k c v : nth_error (s_elements s) k = Some (Some (c, v)) ->
  nth k (electrostatic_rhs s) 0 = match c with VOLTAGE_FIXED _ | VOLTAGE_FUN _ => v | _ => 0 end.
Proof.
  intros H. unfold electrostatic_rhs. apply nth_error_nth. rewrite nth_error_map, H. reflexivity.
Qed.
Lemma magnetostatic_rhs_nth nu s cs k c v vs : nth_error (s_elements s) k = Some (Some (c, v)) -> nth_error (s_vertices s) k = Some vs ->
  nth k (magnetostatic_rhs nu s cs) 0 = match c with
    | MAGNETOSTATIC_POT _ => v
    | MAGNETIZABLE _ => let h := current_field (nu_center nu vs) cs in - flux_density_to_charge_factor v * (vx h * fst (nu_normal nu vs) + vz h * snd (nu_normal nu vs))
    | _ => 0 end.
Proof.
  intros H Hv. unfold magnetostatic_rhs. apply nth_error_nth. rewrite (map2_nth _ _ _ _ _ _ Hv H). destruct c; try reflexivity. destruct (nu_normal nu vs). reflexivity.
Qed.
Lemma center_of_line A v l : map (an_pos A) v = line_points l -> nu_center (backend_numerics A) v = lpoint l /\ nu_normal (backend_numerics A) v = lnormal l.
Proof. intros E. cbn [backend_numerics nu_center nu_normal]. unfold with_rows. rewrite E. destruct l as [[[p0 p1] p2] p3]. unfold lpoint. rewrite lcenter_eq, lnormal_eq. split; reflexivity. Qed.
Lemma center_of_triangle A v t : map (an_pos A) v = tri_points t -> nu_center (backend_numerics A) v = tcenter t.
Proof. intros E. cbn [backend_numerics nu_center]. unfold with_rows. rewrite E. destruct t as [[p0 p1] p2]. rewrite tcenter_eq. reflexivity. Qed.
Lemma value_prescribed A v c p V : nu_center (backend_numerics A) v = p -> prescribes c p V -> element_value (backend_numerics A) v c = V.
Proof. intros E P. destruct c; cbn [prescribes element_value] in *; try contradiction; try congruence. Qed.
Lemma nth_error_nth_R (l : list R) k q : nth_error l k = Some q -> nth k l 0 = q.
Proof. apply nth_error_nth. Qed.

(** ** C61 Electrodes are at their voltage *)
(** [e] is the excitation that is solved (after the change to curved lines), numpy.linalg.solve returns
    the only solution.  The charges are one density per line with an electrostatic condition, in mesh order.
    At the middle of every line with a prescribed voltage (constant or a function of position) the reported
    potential is that voltage, up to the quadrature error of the line's own potential. *)
Theorem C61_radial_voltage A o third e0 e f :
  linear_solver (an_solve A) -> solved_excitation o third e0 = Ok e -> mesh_ok (e_mesh e) -> e_symmetry e = RADIAL -> is_2d (e_mesh e) = true ->
  is_electrostatic e = true -> solve_direct (backend_numerics A) o third e0 = Ok f ->
  exists act ls qs, solved_lines A electrostatic_kind e (b_elec f) act ls qs /\
    forall k i l q c V, nth_error act k = Some i -> nth_error ls k = Some l -> nth_error qs k = Some q ->
      governed electrostatic_kind e i c -> prescribes c (lpoint l) V -> 0 <= fst (lcenter l) ->
      electrostatic_potential_at_point f (lpoint l) = V + q * (lrule_potential l - lself_potential A l).
Proof.
  intros Hlin Hse Hm Sym D2 El Hd. destruct (direct_electrostatic _ _ _ _ _ _ Hd Hse El) as (g & Hg & Gi & Gc).
  destruct (solve_electrostatic_inv _ _ _ Hg) as (s & Hs & Hf).
  destruct (solved_radial A electrostatic_kind is_electrostatic_type e s electrostatic_check Hlin Hm Hs _ _ _ Hf Sym D2) as (act & ls & qs & L & A1 & A2 & A3 & A4 & A5 & A6).
  apply electrostatic_field_get in A4. destruct A4 as (A4 & _ & _ & Cl). rewrite (planar _ D2) in Cl.
  exists act, ls, qs. split; [split; [exact A1|split; [exact A2|split; [exact L|rewrite Gi, A4; reflexivity]]]|].
  intros k i l q c V Ki Kl Kq G P R0. destruct (A6 k i c l Ki G Kl) as (v & V1 & V2 & V3).
  assert (Ev : element_value (backend_numerics A) v c = V) by (apply (value_prescribed A v c (lpoint l)); [apply center_of_line; exact V2|exact P]).
  unfold electrostatic_potential_at_point. rewrite Gc, Cl. unfold potential_radial. rewrite (evaluate_items _ _ _ Gi), A4.
  pose proof (potential_row_line A s ls qs (electrostatic_rhs s) A3 L A5 k c _ l V3 Kl R0) as Row. unfold potential_radial in Row. rewrite Row.
  - rewrite (electrostatic_rhs_nth _ _ _ _ V3), (nth_error_nth_R _ _ _ Kq). destruct c; cbn [prescribes] in P; try contradiction; try (rewrite Ev; reflexivity).
    destruct G as (n & idx & _ & (x & h & y & [Q|[Q|Q]]) & _); discriminate.
  - destruct c; cbn [prescribes] in P; try contradiction; eauto.
Qed.
Print Assumptions C61_radial_voltage.

(** In three dimensions the difference is the quadrature error of the triangles that are near the centre
    of the triangle (including the triangle itself). *)
Theorem C61_three_d_voltage A o third e0 e f :
  linear_solver (an_solve A) -> solved_excitation o third e0 = Ok e -> mesh_ok (e_mesh e) -> e_symmetry e = THREE_D -> is_3d (e_mesh e) = true ->
  is_electrostatic e = true -> solve_direct (backend_numerics A) o third e0 = Ok f ->
  exists act ts qs, solved_triangles A electrostatic_kind e (b_elec f) act ts qs /\
    forall k i t c V, nth_error act k = Some i -> nth_error ts k = Some t -> governed electrostatic_kind e i c -> prescribes c (tcenter t) V ->
      electrostatic_potential_at_point f (tcenter t) = V +
        Rsum (map (fun j => nth j qs 0 * let u := nth j ts t in if negb (k =? j)%nat && tfar u (tcenter t) then 0
                                                                else trule_potential u (tcenter t) - tpotential A u (tcenter t)) (arange (length ts))).
Proof.
  intros Hlin Hse Hm Sym D3 El Hd. destruct (direct_electrostatic _ _ _ _ _ _ Hd Hse El) as (g & Hg & Gi & Gc).
  destruct (solve_electrostatic_inv _ _ _ Hg) as (s & Hs & Hf).
  destruct (solved_three_d A electrostatic_kind is_electrostatic_type e s electrostatic_check Hlin Hm Hs _ _ _ Hf Sym (not_planar _ D3)) as (act & ts & qs & L & A1 & A2 & A3 & A4 & A5 & A6).
  apply electrostatic_field_get in A4. destruct A4 as (A4 & _ & _ & Cl). rewrite D3 in Cl.
  exists act, ts, qs. split; [split; [exact A1|split; [exact A2|split; [exact L|rewrite Gi, A4; reflexivity]]]|].
  intros k i t c V Ki Kl G P. destruct (A6 k i c t Ki G Kl) as (v & V1 & V2 & V3).
  assert (Ev : element_value (backend_numerics A) v c = V) by (apply (value_prescribed A v c (tcenter t)); [apply center_of_triangle; exact V2|exact P]).
  unfold electrostatic_potential_at_point. rewrite Gc, Cl. unfold potential_3d. rewrite (evaluate_items _ _ _ Gi), A4.
  pose proof (potential_row_triangle A s ts qs (electrostatic_rhs s) A3 L A5 k c _ t V3 Kl) as Row. unfold potential_3d in Row. rewrite Row.
  - rewrite (electrostatic_rhs_nth _ _ _ _ V3). destruct c; cbn [prescribes] in P; try contradiction; try (rewrite Ev; reflexivity).
    destruct G as (n & idx & _ & (x & h & y & [Q|[Q|Q]]) & _); discriminate.
  - destruct c; cbn [prescribes] in P; try contradiction; eauto.
Qed.
Print Assumptions C61_three_d_voltage.

(** Magnetostatic potentials likewise (the potential of the magnetisation; currents have no potential). *)
Theorem C61_radial_magnetostatic_potential A o third e0 e f :
  linear_solver (an_solve A) -> solved_excitation o third e0 = Ok e -> mesh_ok (e_mesh e) -> e_symmetry e = RADIAL -> is_2d (e_mesh e) = true ->
  is_magnetostatic e = true -> solve_direct (backend_numerics A) o third e0 = Ok f ->
  exists act ls qs, solved_lines A magnetostatic_kind e (b_mag f) act ls qs /\
    forall k i l q V, nth_error act k = Some i -> nth_error ls k = Some l -> nth_error qs k = Some q ->
      governed magnetostatic_kind e i (MAGNETOSTATIC_POT V) -> 0 <= fst (lcenter l) ->
      magnetostatic_potential_at_point f (lpoint l) = V + q * (lrule_potential l - lself_potential A l).
Proof.
  intros Hlin Hse Hm Sym D2 El Hd. destruct (direct_magnetostatic _ _ _ _ _ _ Hd Hse El) as (g & Hg & Gi & _ & Gc).
  destruct (solve_magnetostatic_inv _ _ _ Hg) as (s & cs & Hs & Hcs & Hf).
  destruct (solved_radial A magnetostatic_kind in_magnetostatic_matrix e s magnetostatic_check Hlin Hm Hs _ _ _ Hf Sym D2) as (act & ls & qs & L & A1 & A2 & A3 & A4 & A5 & A6).
  apply magnetostatic_field_get in A4. destruct A4 as (A4 & _ & _ & Cl). rewrite (planar _ D2) in Cl.
  exists act, ls, qs. split; [split; [exact A1|split; [exact A2|split; [exact L|rewrite Gi, A4; reflexivity]]]|].
  intros k i l q V Ki Kl Kq G R0. destruct (A6 k i _ l Ki G Kl) as (v & V1 & V2 & V3).
  unfold magnetostatic_potential_at_point. rewrite Gc, Cl. unfold potential_radial. rewrite (evaluate_items _ _ _ Gi), A4.
  pose proof (potential_row_line A s ls qs _ A3 L A5 k _ _ l V3 Kl R0) as Row. unfold potential_radial in Row. rewrite Row by eauto.
  rewrite (magnetostatic_rhs_nth _ _ _ _ _ _ _ V3 V1), (nth_error_nth_R _ _ _ Kq). reflexivity.
Qed.
Print Assumptions C61_radial_magnetostatic_potential.

(** ** C62 Normal fields at material boundaries *)
(** The condition at the surface of a dielectric of relative permittivity [K]: with [q] the density of
    charge and [En] the mean of the normal fields on the two sides, the field on the side the normal points
    to is [K] times the field on the other side. *)
Definition refracts (K En q : R) : Prop := En + q / 2 = K * (En - q / 2).
Lemma factor_refracts K En q : K <> -1 -> q = flux_density_to_charge_factor K * En <-> refracts K En q.
Proof.
  intros N. unfold refracts, flux_density_to_charge_factor. assert (1 + K <> 0) by lra. split; intros E.
  - rewrite E. field. assumption.
  - apply (Rmult_eq_reg_l (1 + K)); [|assumption]. replace ((1 + K) * (2 * (K - 1) / (1 + K) * En)) with (2 * (K - 1) * En) by (field; assumption). lra.
Qed.
(** At the middle of every line with a dielectric condition the reported field, with the field of the line
    itself replaced by the adaptively integrated one ([own]), satisfies that condition. *)
Theorem C62_radial_dielectric A o third e0 e f :
  linear_solver (an_solve A) -> solved_excitation o third e0 = Ok e -> mesh_ok (e_mesh e) -> e_symmetry e = RADIAL -> is_2d (e_mesh e) = true ->
  is_electrostatic e = true -> solve_direct (backend_numerics A) o third e0 = Ok f ->
  exists act ls qs, solved_lines A electrostatic_kind e (b_elec f) act ls qs /\
    forall k i l q K own, nth_error act k = Some i -> nth_error ls k = Some l -> nth_error qs k = Some q ->
      governed electrostatic_kind e i (DIELECTRIC K) -> K <> -1 -> 0 <= fst (lcenter l) ->
      lself_flux A K l = flux_density_to_charge_factor K * own ->
      let E := electrostatic_field_at_point f (lpoint l) in
      refracts K (fst (lnormal l) * vx E + snd (lnormal l) * vz E + q * (own - lrule_flux l)) q.
Proof.
  intros Hlin Hse Hm Sym D2 El Hd. destruct (direct_electrostatic _ _ _ _ _ _ Hd Hse El) as (g & Hg & Gi & Gc).
  destruct (solve_electrostatic_inv _ _ _ Hg) as (s & Hs & Hf).
  destruct (solved_radial A electrostatic_kind is_electrostatic_type e s electrostatic_check Hlin Hm Hs _ _ _ Hf Sym D2) as (act & ls & qs & L & A1 & A2 & A3 & A4 & A5 & A6).
  apply electrostatic_field_get in A4. destruct A4 as (A4 & _ & _ & Cl). rewrite (planar _ D2) in Cl.
  exists act, ls, qs. split; [split; [exact A1|split; [exact A2|split; [exact L|rewrite Gi, A4; reflexivity]]]|].
  intros k i l q K own Ki Kl Kq G NK R0 Own E. destruct (A6 k i _ l Ki G Kl) as (v & V1 & V2 & V3). cbn [element_value] in V3.
  pose proof (flux_row_line A s ls qs _ A3 L A5 k _ _ l V3 Kl R0 (or_introl eq_refl)) as Row.
  rewrite (electrostatic_rhs_nth _ _ _ _ V3), (nth_error_nth_R _ _ _ Kq) in Row. apply factor_refracts; [exact NK|].
  assert (EE : E = field_radial (lpoint l) (mkcharges LINE_RULE (combine qs (map line_charge ls)))).
  { unfold E, electrostatic_field_at_point. rewrite Gc, Cl. unfold field_radial. rewrite !(evaluate_items _ _ _ Gi), A4. reflexivity. }
  rewrite EE. rewrite Own in Row. lra.
Qed.
Print Assumptions C62_radial_dielectric.

(** Magnetic material: the field includes that of the currents. *)
Theorem C62_radial_magnetizable A o third e0 e f :
  linear_solver (an_solve A) -> solved_excitation o third e0 = Ok e -> mesh_ok (e_mesh e) -> e_symmetry e = RADIAL -> is_2d (e_mesh e) = true ->
  is_magnetostatic e = true -> solve_direct (backend_numerics A) o third e0 = Ok f ->
  exists act ls qs, solved_lines A magnetostatic_kind e (b_mag f) act ls qs /\
    forall k i l q K own, nth_error act k = Some i -> nth_error ls k = Some l -> nth_error qs k = Some q ->
      governed magnetostatic_kind e i (MAGNETIZABLE K) -> K <> -1 -> 0 <= fst (lcenter l) ->
      lself_flux A K l = flux_density_to_charge_factor K * own ->
      let H := magnetostatic_field_at_point f (lpoint l) in
      refracts K (fst (lnormal l) * vx H + snd (lnormal l) * vz H + q * (own - lrule_flux l)) q.
Proof.
  intros Hlin Hse Hm Sym D2 El Hd. destruct (direct_magnetostatic _ _ _ _ _ _ Hd Hse El) as (g & Hg & Gi & Gcur & Gc).
  destruct (solve_magnetostatic_inv _ _ _ Hg) as (s & cs & Hs & Hcs & Hf).
  destruct (solved_radial A magnetostatic_kind in_magnetostatic_matrix e s magnetostatic_check Hlin Hm Hs _ _ _ Hf Sym D2) as (act & ls & qs & L & A1 & A2 & A3 & A4 & A5 & A6).
  apply magnetostatic_field_get in A4. destruct A4 as (A4 & _ & Ac & Cl). rewrite (planar _ D2) in Cl, Ac.
  exists act, ls, qs. split; [split; [exact A1|split; [exact A2|split; [exact L|rewrite Gi, A4; reflexivity]]]|].
  intros k i l q K own Ki Kl Kq G NK R0 Own H. destruct (A6 k i _ l Ki G Kl) as (v & V1 & V2 & V3). cbn [element_value] in V3.
  pose proof (flux_row_line A s ls qs _ A3 L A5 k _ _ l V3 Kl R0 (or_intror eq_refl)) as Row.
  rewrite (magnetostatic_rhs_nth _ _ _ _ _ _ _ V3 V1), (nth_error_nth_R _ _ _ Kq) in Row. destruct (center_of_line A v l V2) as [Ec En]. rewrite Ec, En in Row. cbv zeta in Row.
  apply factor_refracts; [exact NK|].
  assert (EE : H = vadd (current_field (lpoint l) cs) (field_radial (lpoint l) (mkcharges LINE_RULE (combine qs (map line_charge ls))))).
  { unfold H, magnetostatic_field_at_point. rewrite Gc, Cl. unfold field_radial, current_field. rewrite !(evaluate_items _ _ _ Gi), A4, !(evaluate_items _ _ _ Gcur), Ac. reflexivity. }
  rewrite EE. cbn [vadd vx vz]. rewrite Own in Row. lra.
Qed.
Print Assumptions C62_radial_magnetizable.

(** Triangles: the own field of a flat triangle has no normal component; near triangles are integrated. *)
Theorem C62_three_d_dielectric A o third e0 e f :
  linear_solver (an_solve A) -> solved_excitation o third e0 = Ok e -> mesh_ok (e_mesh e) -> e_symmetry e = THREE_D -> is_3d (e_mesh e) = true ->
  is_electrostatic e = true -> solve_direct (backend_numerics A) o third e0 = Ok f ->
  exists act ts qs, solved_triangles A electrostatic_kind e (b_elec f) act ts qs /\
    forall k i t q K, nth_error act k = Some i -> nth_error ts k = Some t -> nth_error qs k = Some q -> governed electrostatic_kind e i (DIELECTRIC K) -> K <> -1 ->
      refracts K (dot (tnormal t) (electrostatic_field_at_point f (tcenter t)) +
        Rsum (map (fun j => nth j qs 0 * let u := nth j ts t in if (k =? j)%nat || tfar u (tcenter t) then 0
                                           else tflux A u (tcenter t) (tnormal t) - trule_flux u (tcenter t) (tnormal t)) (arange (length ts)))) q.
Proof.
  intros Hlin Hse Hm Sym D3 El Hd. destruct (direct_electrostatic _ _ _ _ _ _ Hd Hse El) as (g & Hg & Gi & Gc).
  destruct (solve_electrostatic_inv _ _ _ Hg) as (s & Hs & Hf).
  destruct (solved_three_d A electrostatic_kind is_electrostatic_type e s electrostatic_check Hlin Hm Hs _ _ _ Hf Sym (not_planar _ D3)) as (act & ts & qs & L & A1 & A2 & A3 & A4 & A5 & A6).
  apply electrostatic_field_get in A4. destruct A4 as (A4 & _ & _ & Cl). rewrite D3 in Cl.
  exists act, ts, qs. split; [split; [exact A1|split; [exact A2|split; [exact L|rewrite Gi, A4; reflexivity]]]|].
  intros k i t q K Ki Kl Kq G NK. destruct (A6 k i _ t Ki G Kl) as (v & V1 & V2 & V3). cbn [element_value] in V3.
  pose proof (flux_row_triangle A s ts qs (electrostatic_rhs s) A3 L A5 k _ _ t V3 Kl (or_introl eq_refl)) as Row.
  rewrite (electrostatic_rhs_nth _ _ _ _ V3), (nth_error_nth_R _ _ _ Kq) in Row. apply factor_refracts; [exact NK|].
  assert (EE : electrostatic_field_at_point f (tcenter t) = field_3d (tcenter t) (mkcharges TRIANGLE_RULE (combine qs (map tri_charge ts)))).
  { unfold electrostatic_field_at_point. rewrite Gc, Cl. unfold field_3d. rewrite !(evaluate_items _ _ _ Gi), A4. reflexivity. }
  rewrite EE. lra.
Qed.
Print Assumptions C62_three_d_dielectric.

Theorem C61_three_d_magnetostatic_potential A o third e0 e f :
  linear_solver (an_solve A) -> solved_excitation o third e0 = Ok e -> mesh_ok (e_mesh e) -> e_symmetry e = THREE_D -> is_3d (e_mesh e) = true ->
  is_magnetostatic e = true -> solve_direct (backend_numerics A) o third e0 = Ok f ->
  exists act ts qs, solved_triangles A magnetostatic_kind e (b_mag f) act ts qs /\
    forall k i t V, nth_error act k = Some i -> nth_error ts k = Some t -> governed magnetostatic_kind e i (MAGNETOSTATIC_POT V) ->
      magnetostatic_potential_at_point f (tcenter t) = V +
        Rsum (map (fun j => nth j qs 0 * let u := nth j ts t in if negb (k =? j)%nat && tfar u (tcenter t) then 0
                                                                else trule_potential u (tcenter t) - tpotential A u (tcenter t)) (arange (length ts))).
Proof.
  intros Hlin Hse Hm Sym D3 El Hd. destruct (direct_magnetostatic _ _ _ _ _ _ Hd Hse El) as (g & Hg & Gi & _ & Gc).
  destruct (solve_magnetostatic_inv _ _ _ Hg) as (s & cs & Hs & Hcs & Hf).
  destruct (solved_three_d A magnetostatic_kind in_magnetostatic_matrix e s magnetostatic_check Hlin Hm Hs _ _ _ Hf Sym (not_planar _ D3)) as (act & ts & qs & L & A1 & A2 & A3 & A4 & A5 & A6).
  apply magnetostatic_field_get in A4. destruct A4 as (A4 & _ & _ & Cl). rewrite D3 in Cl.
  exists act, ts, qs. split; [split; [exact A1|split; [exact A2|split; [exact L|rewrite Gi, A4; reflexivity]]]|].
  intros k i t V Ki Kl G. destruct (A6 k i _ t Ki G Kl) as (v & V1 & V2 & V3).
  unfold magnetostatic_potential_at_point. rewrite Gc, Cl. unfold potential_3d. rewrite (evaluate_items _ _ _ Gi), A4.
  pose proof (potential_row_triangle A s ts qs _ A3 L A5 k _ _ t V3 Kl) as Row. unfold potential_3d in Row. rewrite Row by eauto.
  rewrite (magnetostatic_rhs_nth _ _ _ _ _ _ _ V3 V1). reflexivity.
Qed.
Print Assumptions C61_three_d_magnetostatic_potential.
Lemma no_current_charges nu e cs : has_current e = false -> current_charges nu e = Ok cs -> cs = empty_3d.
Proof. intros H. unfold current_charges. rewrite H. destruct (arows _); cbn [negb]; congruence. Qed.
Lemma no_current_field p : current_field p empty_3d = vzero.
Proof. unfold current_field, from_cylinder, evaluate. cbn [q_items empty_3d map Rsum]. destruct (Rle_dec _ _); unfold vzero; f_equal; ring. Qed.
Theorem C62_three_d_magnetizable A o third e0 e f :
  linear_solver (an_solve A) -> solved_excitation o third e0 = Ok e -> mesh_ok (e_mesh e) -> e_symmetry e = THREE_D -> is_3d (e_mesh e) = true ->
  is_magnetostatic e = true -> has_current e = false -> solve_direct (backend_numerics A) o third e0 = Ok f ->
  exists act ts qs, solved_triangles A magnetostatic_kind e (b_mag f) act ts qs /\
    forall k i t q K, nth_error act k = Some i -> nth_error ts k = Some t -> nth_error qs k = Some q -> governed magnetostatic_kind e i (MAGNETIZABLE K) -> K <> -1 ->
      refracts K (dot (tnormal t) (magnetostatic_field_at_point f (tcenter t)) +
        Rsum (map (fun j => nth j qs 0 * let u := nth j ts t in if (k =? j)%nat || tfar u (tcenter t) then 0
                                           else tflux A u (tcenter t) (tnormal t) - trule_flux u (tcenter t) (tnormal t)) (arange (length ts)))) q.
Proof.
  intros Hlin Hse Hm Sym D3 El NoC Hd. destruct (direct_magnetostatic _ _ _ _ _ _ Hd Hse El) as (g & Hg & Gi & _ & Gc).
  destruct (solve_magnetostatic_inv _ _ _ Hg) as (s & cs & Hs & Hcs & Hf). apply (no_current_charges _ _ _ NoC) in Hcs. subst cs.
  destruct (solved_three_d A magnetostatic_kind in_magnetostatic_matrix e s magnetostatic_check Hlin Hm Hs _ _ _ Hf Sym (not_planar _ D3)) as (act & ts & qs & L & A1 & A2 & A3 & A4 & A5 & A6).
  apply magnetostatic_field_get in A4. destruct A4 as (A4 & _ & _ & Cl). rewrite D3 in Cl.
  exists act, ts, qs. split; [split; [exact A1|split; [exact A2|split; [exact L|rewrite Gi, A4; reflexivity]]]|].
  intros k i t q K Ki Kl Kq G NK. destruct (A6 k i _ t Ki G Kl) as (v & V1 & V2 & V3). cbn [element_value] in V3.
  pose proof (flux_row_triangle A s ts qs _ A3 L A5 k _ _ t V3 Kl (or_intror eq_refl)) as Row.
  rewrite (magnetostatic_rhs_nth _ _ _ _ _ _ _ V3 V1), (nth_error_nth_R _ _ _ Kq), no_current_field in Row. cbn [vzero vx vz] in Row. apply factor_refracts; [exact NK|].
  assert (EE : magnetostatic_field_at_point f (tcenter t) = field_3d (tcenter t) (mkcharges TRIANGLE_RULE (combine qs (map tri_charge ts)))).
  { unfold magnetostatic_field_at_point. rewrite Gc, Cl. unfold field_3d. rewrite !(evaluate_items _ _ _ Gi), A4. reflexivity. }
  rewrite EE. lra.
Qed.
Print Assumptions C62_three_d_magnetizable.

(** ** Problems that meet the hypotheses *)
(** Two elements, [a] with a voltage (or a magnetostatic potential) and [b] of a material of constant [K]; a
    solver for two unknowns; an integrator that returns a constant. *)
Definition solve_2 (A : list (list R)) (F : list R) : result (list R) :=
  match A, F with
  | [[a; b]; [c; d]], [r1; r2] => if Req_EM_T (a * d - b * c) 0 then Err ValueError
                                  else Ok [(r1 * d - b * r2) / (a * d - b * c); (a * r2 - c * r1) / (a * d - b * c)]
  | _, _ => Err ValueError
  end.
Lemma solve_2_ok a b c d r1 r2 : a * d - b * c <> 0 -> exists x, solve_2 [[a; b]; [c; d]] [r1; r2] = Ok x.
Proof. intros H. unfold solve_2. destruct (Req_EM_T _ 0); [contradiction|eauto]. Qed.
Lemma solve_2_linear : linear_solver solve_2.
Proof.
  intros A F x H. unfold solve_2 in H. destruct A as [|[|a [|b [|]]] [|[|c [|d [|]]] [|]]]; try discriminate. destruct F as [|r1 [|r2 [|]]]; try discriminate.
  destruct (Req_EM_T (a * d - b * c) 0) as [|N]; [discriminate|]. injection H as <-. split.
  - split; [reflexivity|]. unfold matvec, dotp. cbn. f_equal; [field; exact N|]. f_equal. field. exact N.
  - intros y [L E]. destruct y as [|y1 [|y2 [|]]]; try discriminate. unfold matvec, dotp in E. cbn in E. injection E as E1 E2.
    f_equal; [|f_equal]; rewrite <- E1, <- E2; field; exact N.
Qed.
Definition ex_dec (p : point) : vec3 := let '(x, y, z) := p in V3 (IZR (coord01 x)) (IZR (coord01 y)) (IZR (coord01 z)).
Definition ex_analysis (c : R) : analysis := {| an_pos := ex_dec; an_quad := fun _ => c; an_integrate := fun _ _ _ => c; an_solve := solve_2 |}.
Definition ex_line_mesh : mesh := mkmesh [(f0, f0, f0); (f1, f0, f0); (f0, f0, f1); (f1, f0, f1)] (mkarr 4%nat [[0; 1; 2; 3]%nat; [1; 0; 3; 2]%nat]) (mkarr 3%nat [[1; 2; 3]%nat])
  [("a"%string, [0%nat]); ("b"%string, [1%nat])] [("coil"%string, [0%nat])].
Definition ex_tri_mesh : mesh := mkmesh [(f0, f0, f0); (f1, f0, f0); (f0, f1, f0); (f0, f0, f1)] (mkarr 2%nat []) (mkarr 3%nat [[0; 1; 2]%nat; [0; 1; 3]%nat])
  [] [("a"%string, [0%nat]); ("b"%string, [1%nat])].
Definition ex_radial V K := mkexc ex_line_mesh ["a"; "b"; "coil"]%string [("a"%string, VOLTAGE_FIXED V); ("b"%string, DIELECTRIC K)] RADIAL.
Definition ex_magnetic V K I := mkexc ex_line_mesh ["a"; "b"; "coil"]%string [("a"%string, MAGNETOSTATIC_POT V); ("b"%string, MAGNETIZABLE K); ("coil"%string, CURRENT I)] RADIAL.
Definition ex_triangles V K := mkexc ex_tri_mesh ["a"; "b"]%string [("a"%string, VOLTAGE_FIXED V); ("b"%string, DIELECTRIC K)] THREE_D.
Definition ex_vs2 (r1 r2 : list nat) (m : mesh) : list (list point) := map (map (fun i => nth i (m_points m) (f0, f0, f0))) [r1; r2].
Definition ex_off K : R := nu_potential (backend_numerics (ex_analysis 0)) (ex_vs2 [0; 1; 2; 3]%nat [1; 0; 3; 2]%nat ex_line_mesh) 0 1 *
                           nu_flux (backend_numerics (ex_analysis 0)) K (ex_vs2 [0; 1; 2; 3]%nat [1; 0; 3; 2]%nat ex_line_mesh) 1 0.
Lemma ex_det K : (2 + Rabs (ex_off K)) * (2 + Rabs (ex_off K) - 1) - ex_off K <> 0.
Proof. pose proof (Rle_abs (ex_off K)). pose proof (Rabs_pos (ex_off K)). nra. Qed.
Lemma ex_governed (kind : condition -> Prop) e n i c idx : dget (e_types e) n = Some c -> kind c -> dget (groups_of e) n = Some idx -> In i idx ->
  (forall n' idx', In n' (dkeys (e_types e)) -> dget (groups_of e) n' = Some idx' -> In i idx' -> n' = n) -> governed kind e i c.
Proof. intros H1 H2 H3 H4 H5. exists n, idx. repeat split; auto. intros n' c' idx' D _ D2 D3. apply (H5 n' idx'); auto. apply dget_In in D. change n' with (fst (n', c')). apply in_map. exact D. Qed.
Example C61_radial_nonvacuous o third V K : let e := ex_radial V K in let A := ex_analysis (2 + Rabs (ex_off K)) in
  linear_solver (an_solve A) /\ solved_excitation o third e = Ok e /\ mesh_ok (e_mesh e) /\ is_2d (e_mesh e) = true /\ is_electrostatic e = true /\
  (exists f, solve_direct (backend_numerics A) o third e = Ok f) /\
  governed electrostatic_kind e 0 (VOLTAGE_FIXED V) /\ governed electrostatic_kind e 1 (DIELECTRIC K) /\
  (forall l, element_at ex_dec e 0 (line_points l) \/ element_at ex_dec e 1 (line_points l) -> 0 <= fst (lcenter l)).
Proof.
  cbv zeta. split; [exact solve_2_linear|]. split; [reflexivity|]. split; [apply input_okb_ok; vm_compute; reflexivity|]. split; [reflexivity|]. split; [reflexivity|]. split; [|split; [|split]].
  - set (nu := backend_numerics (ex_analysis (2 + Rabs (ex_off K)))). assert (Hs : electrostatic_solver nu (ex_radial V K) = Ok (mksolver (ex_radial V K) (ex_vs2 [0; 1; 2; 3]%nat [1; 0; 3; 2]%nat ex_line_mesh) [Some (VOLTAGE_FIXED V, V); Some (DIELECTRIC K, K)])) by reflexivity.
    unfold solve_direct. assert (S : solved_excitation o third (ex_radial V K) = Ok (ex_radial V K)) by reflexivity. rewrite S. cbn [bind]. cbv zeta.
    change (is_magnetostatic (ex_radial V K)) with false. change (is_electrostatic (ex_radial V K)) with true. cbn [andb orb py_assert bind].
    unfold solve_electrostatic. rewrite Hs. cbn [bind].
    destruct (solve_2_ok (2 + Rabs (ex_off K)) (nu_potential nu (ex_vs2 [0; 1; 2; 3]%nat [1; 0; 3; 2]%nat ex_line_mesh) 0 1) (nu_flux nu K (ex_vs2 [0; 1; 2; 3]%nat [1; 0; 3; 2]%nat ex_line_mesh) 1 0) (2 + Rabs (ex_off K) - 1) V 0 (ex_det K)) as (x & Hx).
    eexists. unfold solve_matrix. cbn [s_vertices s_exc ex_vs2 map]. cbn [forallb electrostatic_rhs s_elements map length Nat.eqb andb py_assert bind].
    change (is_3d (e_mesh (ex_radial V K)) && negb (is_higher_order (e_mesh (ex_radial V K))) || is_2d (e_mesh (ex_radial V K)) && is_higher_order (e_mesh (ex_radial V K))) with true. cbn [py_assert bind mapM].
    change (nu_solve nu) with solve_2.
    match goal with |- context [solve_2 ?m ?r] => change m with [[2 + Rabs (ex_off K); nu_potential nu (ex_vs2 [0; 1; 2; 3]%nat [1; 0; 3; 2]%nat ex_line_mesh) 0 1]; [nu_flux nu K (ex_vs2 [0; 1; 2; 3]%nat [1; 0; 3; 2]%nat ex_line_mesh) 1 0; 2 + Rabs (ex_off K) - 1]] end.
    rewrite Hx. cbn [bind]. reflexivity.
  - apply (ex_governed _ _ "a"%string 0 _ [0%nat]); try reflexivity; [exists V, (fun _ _ _ => 0), 0; auto|left; reflexivity|].
    intros n' idx' I. cbn in I. destruct I as [<-|[<-|[]]]; [reflexivity|]. cbn. intros Q. injection Q as <-. intros [Q|[]]. discriminate.
  - apply (ex_governed _ _ "b"%string 1 _ [1%nat]); try reflexivity; [exists 0, (fun _ _ _ => 0), K; auto|left; reflexivity|].
    intros n' idx' I. cbn in I. destruct I as [<-|[<-|[]]]; [|reflexivity]. cbn. intros Q. injection Q as <-. intros [Q|[]]. discriminate.
  - assert (X : forall r l, (r = [0; 1; 2; 3] \/ r = [1; 0; 3; 2])%nat -> line_points l = map ex_dec (map (fun i => nth i (m_points ex_line_mesh) (f0, f0, f0)) r) -> 0 <= fst (lcenter l)).
    { intros r [[[p0 p1] p2] p3] Hr E. destruct Hr as [-> | ->]; injection E as -> -> -> ->; rewrite lcenter_eq; unfold line_center, position_radial, cubic_coord; cbn; lra. }
    intros l [H|H]; destruct H as (v & (r & R1 & R2) & E); cbn in R1; injection R1 as <-;
      repeat match goal with Q : Forall2 _ (_ :: _) _ |- _ => inversion Q; clear Q; subst | Q : Forall2 _ [] _ |- _ => inversion Q; clear Q; subst end;
      repeat match goal with Q : nth_error _ _ = Some _ |- _ => cbn in Q; injection Q as <- end; [apply (X [0; 1; 2; 3]%nat)|apply (X [1; 0; 3; 2]%nat)]; auto.
Qed.
Definition ex_rows := ex_vs2 [0; 1; 2; 3]%nat [1; 0; 3; 2]%nat ex_line_mesh.
Example C62_magnetic_nonvacuous o third V K I : let e := ex_magnetic V K I in let A := ex_analysis (2 + Rabs (ex_off K)) in
  linear_solver (an_solve A) /\ solved_excitation o third e = Ok e /\ mesh_ok (e_mesh e) /\ is_2d (e_mesh e) = true /\ is_magnetostatic e = true /\
  (exists f, solve_direct (backend_numerics A) o third e = Ok f /\ q_items (b_cur f) <> []) /\
  governed magnetostatic_kind e 0 (MAGNETOSTATIC_POT V) /\ governed magnetostatic_kind e 1 (MAGNETIZABLE K).
Proof.
  cbv zeta. split; [exact solve_2_linear|]. split; [reflexivity|]. split; [apply input_okb_ok; vm_compute; reflexivity|]. split; [reflexivity|]. split; [reflexivity|]. split; [|split].
  - set (nu := backend_numerics (ex_analysis (2 + Rabs (ex_off K)))). assert (Hs : magnetostatic_solver nu (ex_magnetic V K I) = Ok (mksolver (ex_magnetic V K I) ex_rows [Some (MAGNETOSTATIC_POT V, V); Some (MAGNETIZABLE K, K)])) by reflexivity.
    unfold solve_direct. assert (S : solved_excitation o third (ex_magnetic V K I) = Ok (ex_magnetic V K I)) by reflexivity. rewrite S. cbn [bind]. cbv zeta.
    change (is_magnetostatic (ex_magnetic V K I)) with true. change (is_electrostatic (ex_magnetic V K I)) with false. cbn [andb orb py_assert bind].
    unfold solve_magnetostatic. rewrite Hs. cbn [bind].
    assert (Hc : exists q t, current_charges nu (ex_magnetic V K I) = Ok (mkcharges TRIANGLE_RULE [(q, t)])) by (eexists; eexists; reflexivity). destruct Hc as (q & t & ->). cbn [bind].
    set (cs := mkcharges TRIANGLE_RULE [(q, t)]).
    assert (Hr : exists r2, magnetostatic_rhs nu (mksolver (ex_magnetic V K I) ex_rows [Some (MAGNETOSTATIC_POT V, V); Some (MAGNETIZABLE K, K)]) cs = [V; r2]) by (eexists; reflexivity).
    destruct Hr as (r2 & Hr). rewrite Hr. clear Hr.
    destruct (solve_2_ok (2 + Rabs (ex_off K)) (nu_potential nu ex_rows 0 1) (nu_flux nu K ex_rows 1 0) (2 + Rabs (ex_off K) - 1) V r2 (ex_det K)) as (x & Hx).
    unfold solve_matrix. cbn [s_vertices s_exc]. change ex_rows with (ex_vs2 [0; 1; 2; 3]%nat [1; 0; 3; 2]%nat ex_line_mesh) at 1. cbn [ex_vs2 map]. cbn [forallb length Nat.eqb andb py_assert bind].
    change (is_3d (e_mesh (ex_magnetic V K I)) && negb (is_higher_order (e_mesh (ex_magnetic V K I))) || is_2d (e_mesh (ex_magnetic V K I)) && is_higher_order (e_mesh (ex_magnetic V K I))) with true.
    change (length ex_rows) with 2%nat. cbn [Nat.eqb py_assert bind mapM].
    change (nu_solve nu) with solve_2.
    match goal with |- context [solve_2 ?m ?r] => change m with [[2 + Rabs (ex_off K); nu_potential nu ex_rows 0 1]; [nu_flux nu K ex_rows 1 0; 2 + Rabs (ex_off K) - 1]] end.
    rewrite Hx. cbn [bind]. eexists. split; [reflexivity|]. cbn. discriminate.
  - apply (ex_governed _ _ "a"%string 0 _ [0%nat]); try reflexivity; [exists V, 0; auto|left; reflexivity|].
    intros n' idx' J. cbn in J. destruct J as [<-|[<-|[<-|[]]]]; [reflexivity| |]; cbn; intros Q; [|discriminate]. injection Q as <-. intros [Q|[]]. discriminate.
  - apply (ex_governed _ _ "b"%string 1 _ [1%nat]); try reflexivity; [exists 0, K; auto|left; reflexivity|].
    intros n' idx' J. cbn in J. destruct J as [<-|[<-|[<-|[]]]]; [|reflexivity|]; cbn; intros Q; [|discriminate]. injection Q as <-. intros [Q|[]]. discriminate.
Qed.
Lemma ex_near p : 0 <= vx p <= 1 -> 0 <= vy p <= 1 -> 0 <= vz p <= 1 -> far p (V3 0 0 0) (V3 1 0 0) = false.
Proof.
  intros X Y Z. unfold far. destruct (Rlt_dec _ _) as [L|_]; [exfalso|reflexivity]. unfold dist3 in L.
  assert (N1 : norm (vsub (V3 0 0 0) (V3 1 0 0)) = 1) by (apply norm_unique; [lra|]; unfold dot, vsub; cbn [vx vy vz]; ring). rewrite N1 in L.
  assert (N2 : norm (vsub (V3 0 0 0) p) <= 5); [|lra]. unfold norm. rewrite <- (sqrt_square 5) by lra. apply sqrt_le_1_alt. unfold vsub. cbn [vx vy vz]. nra.
Qed.
Definition ex_tri_rows := ex_vs2 [0; 1; 2]%nat [0; 1; 3]%nat ex_tri_mesh.
Example C62_three_d_nonvacuous o third V : let e := ex_triangles V 3 in let A := ex_analysis (4 * PI) in
  linear_solver (an_solve A) /\ solved_excitation o third e = Ok e /\ mesh_ok (e_mesh e) /\ is_3d (e_mesh e) = true /\ is_electrostatic e = true /\
  (exists f, solve_direct (backend_numerics A) o third e = Ok f) /\
  governed electrostatic_kind e 0 (VOLTAGE_FIXED V) /\ governed electrostatic_kind e 1 (DIELECTRIC 3).
Proof.
  cbv zeta. split; [exact solve_2_linear|]. split; [reflexivity|]. split; [apply input_okb_ok; vm_compute; reflexivity|]. split; [reflexivity|]. split; [reflexivity|]. split; [|split].
  - set (nu := backend_numerics (ex_analysis (4 * PI))). assert (Hs : electrostatic_solver nu (ex_triangles V 3) = Ok (mksolver (ex_triangles V 3) ex_tri_rows [Some (VOLTAGE_FIXED V, V); Some (DIELECTRIC 3, 3)])) by reflexivity.
    unfold solve_direct. assert (S : solved_excitation o third (ex_triangles V 3) = Ok (ex_triangles V 3)) by reflexivity. rewrite S. cbn [bind]. cbv zeta.
    change (is_magnetostatic (ex_triangles V 3)) with false. change (is_electrostatic (ex_triangles V 3)) with true. cbn [andb orb py_assert bind].
    unfold solve_electrostatic. rewrite Hs. cbn [bind]. pose proof PI_RGT_0 as P.
    assert (E00 : nu_potential nu ex_tri_rows 0 0 = 1).
    { transitivity (4 * PI / (4 * PI)); [reflexivity|field; lra]. }
    assert (E01 : nu_potential nu ex_tri_rows 0 1 = 1).
    { transitivity (potential_entry_3d (ex_analysis (4 * PI)) false (V3 0 0 0) (V3 1 0 0) (V3 0 1 0) (V3 0 0 0) (V3 1 0 0) (V3 0 0 1)); [reflexivity|]. unfold potential_entry_3d. cbn [negb andb].
      rewrite ex_near by (unfold triangle_center, position_3d; cbn; lra). unfold potential_triangle. cbn [an_integrate ex_analysis]. field. lra. }
    assert (E10 : nu_flux nu 3 ex_tri_rows 1 0 = 1).
    { transitivity (flux_entry_3d (ex_analysis (4 * PI)) 3 false (V3 0 0 0) (V3 1 0 0) (V3 0 0 1) (V3 0 0 0) (V3 1 0 0) (V3 0 1 0)); [reflexivity|]. unfold flux_entry_3d. cbv zeta.
      rewrite ex_near by (unfold triangle_center, position_3d; cbn; lra). unfold flux_triangle, flux_density_to_charge_factor. cbn [an_integrate ex_analysis]. field. lra. }
    assert (E11 : nu_flux nu 3 ex_tri_rows 1 1 = -1) by reflexivity.
    destruct (solve_2_ok (nu_potential nu ex_tri_rows 0 0) (nu_potential nu ex_tri_rows 0 1) (nu_flux nu 3 ex_tri_rows 1 0) (nu_flux nu 3 ex_tri_rows 1 1) V 0) as (x & Hx);
      [rewrite E00, E01, E10, E11; lra|]. clear E00 E01 E10 E11.
    unfold solve_matrix. cbn [s_vertices s_exc]. change ex_tri_rows with (ex_vs2 [0; 1; 2]%nat [0; 1; 3]%nat ex_tri_mesh) at 1. cbn [ex_vs2 map]. cbn [forallb electrostatic_rhs s_elements map length Nat.eqb andb py_assert bind].
    change (is_3d (e_mesh (ex_triangles V 3)) && negb (is_higher_order (e_mesh (ex_triangles V 3))) || is_2d (e_mesh (ex_triangles V 3)) && is_higher_order (e_mesh (ex_triangles V 3))) with true.
    change (length ex_tri_rows) with 2%nat. cbn [Nat.eqb py_assert bind mapM]. change (nu_solve nu) with solve_2.
    match goal with |- context [solve_2 ?m ?r] => change m with [[nu_potential nu ex_tri_rows 0 0; nu_potential nu ex_tri_rows 0 1]; [nu_flux nu 3 ex_tri_rows 1 0; nu_flux nu 3 ex_tri_rows 1 1]] end.
    rewrite Hx. cbn [bind]. eexists. reflexivity.
  - apply (ex_governed _ _ "a"%string 0 _ [0%nat]); try reflexivity; [exists V, (fun _ _ _ => 0), 0; auto|left; reflexivity|].
    intros n' idx' J. cbn in J. destruct J as [<-|[<-|[]]]; [reflexivity|]; cbn; intros Q. injection Q as <-. intros [Q|[]]. discriminate.
  - apply (ex_governed _ _ "b"%string 1 _ [1%nat]); try reflexivity; [exists 0, (fun _ _ _ => 0), 3; auto|left; reflexivity|].
    intros n' idx' J. cbn in J. destruct J as [<-|[<-|[]]]; [|reflexivity]; cbn; intros Q. injection Q as <-. intros [Q|[]]. discriminate.
Qed.
