(** Property theorems about tracing through the compiled backend: C91 (the arrays that a tracer returns) and C92 (how the bounds of a field
    are stored).  The meaning of [outcome_of], [returns_trajectory], [eff_ok], ... is in TraceMemSpec. *)
From Coq Require Import Reals Lra.
From Verif Require Import Base BaseFacts Vec GeomModel MemModel FieldModel SeriesModel Axial3DModel DispatchModel TracingModel TracingMore MemFacts BackendModel BackendValues BackendCalls BackendReturns BackendSeries TraceMemModel TraceMemSpec TraceMemBlocks TraceMemFields TraceMemCalls TraceMemErrors TraceMemBounds TracingFacts Props_Field.
Local Open Scope R_scope.
Local Open Scope mem_scope.

(** * C91 *)
Lemma block_size : (2 <= TRACING_BLOCK_SIZE)%nat. Proof. unfold TRACING_BLOCK_SIZE. change 2%nat with (Z.to_nat 2). apply Z2Nat.inj_le; lia. Qed.
(** The tracer of a radial field: whatever the numbers of the blocks, the steps and the layout of the arguments in memory, the call returns exactly the samples
    of TracingModel (about which C37 to C41, C85 and C86 are) as the rows of two new arrays, or it raises the same error; it does not access memory it may not,
    and it changes no buffer that existed before. *)
Theorem C91_radial h fuel inner elec mag cur fb b tb bounds position velocity x w atol :
  eff_ok h N_QUAD_2D 2 elec -> eff_ok h N_QUAD_2D 2 mag -> eff_ok h N_TRIANGLE_QUAD 3 cur -> bounds_given h fb b ->
  box_at h tb bounds -> vector_at h position x -> vector_at h velocity w ->
  outcome_of h (tracer_radial_bem fuel inner TRACING_BLOCK_SIZE elec mag cur fb tb position velocity atol)
    (tracer_call fuel inner (mkbem FieldRadialBEM (line_eff h elec) (line_eff h mag) (triangle_eff h cur) b) bounds atol x w).
Proof.
  intros Oe Om Oc Ob Hb Hx Hw. apply (outcome_radial_bem h fuel inner TRACING_BLOCK_SIZE tb position velocity bounds x w atol block_size Hb Hx Hw elec mag cur fb b Oe Om Oc).
  now apply (bounds_given_at h h); [|apply extends_refl].
Qed.
Print Assumptions C91_radial.
(** ... and of a three-dimensional field, of which the tracer does not use the bounds and the currents *)
Theorem C91_three_d h fuel inner elec mag cur b tb bounds position velocity x w atol :
  eff_ok h N_TRIANGLE_QUAD 3 elec -> eff_ok h N_TRIANGLE_QUAD 3 mag -> box_at h tb bounds -> vector_at h position x -> vector_at h velocity w ->
  outcome_of h (tracer_3d_bem fuel inner TRACING_BLOCK_SIZE elec mag tb position velocity atol)
    (tracer_call fuel inner (mkbem Field3D_BEM (triangle_eff h elec) (triangle_eff h mag) cur b) bounds atol x w).
Proof. intros Oe Om Hb Hx Hw. exact (outcome_3d_bem h fuel inner TRACING_BLOCK_SIZE tb position velocity bounds x w atol block_size Hb Hx Hw elec mag (mkbem Field3D_BEM _ _ cur b) Oe Om eq_refl eq_refl). Qed.
Print Assumptions C91_three_d.
(** The tracers of axial fields return the samples of TracingModel if that has a result (it has none if the electron meets the last sample of the
    table, where the C code reads past its end: C44). *)
Theorem C91_radial_axial h junk fuel inner z elec mag N_z tb bounds position velocity x w atol samples :
  floats h z [N_z] -> floats h elec [(N_z - 1)%nat; 9%nat; 6%nat] -> floats h mag [(N_z - 1)%nat; 9%nat; 6%nat] -> (1 <= N_z)%nat ->
  box_at h tb bounds -> vector_at h position x -> vector_at h velocity w ->
  axial_tracer_call fuel inner (mkaxial (BackendSeries.samples h z) (table h elec) (table h mag)) bounds atol x w = Ok samples ->
  returns_trajectory h (tracer_radial_axial junk fuel inner TRACING_BLOCK_SIZE z elec mag tb position velocity atol) samples.
Proof.
  intros Fz Fe Fm HN Hb Hx Hw H. unfold axial_tracer_call in H. apply bind_ok in H. destruct H as (v & Hv & H).
  exact (call_radial_axial h fuel inner TRACING_BLOCK_SIZE tb position velocity bounds x v atol block_size Hb Hx (ex_intro _ w (conj Hw Hv)) junk z elec mag N_z samples Fz Fe Fm HN H).
Qed.
Print Assumptions C91_radial_axial.
Theorem C91_three_d_axial h junk fuel inner z elec mag N_z tb bounds position velocity x w v atol samples :
  floats h z [N_z] -> floats h elec [(N_z - 1)%nat; 2%nat; NU_MAX; M_MAX; 4%nat] -> floats h mag [(N_z - 1)%nat; 2%nat; NU_MAX; M_MAX; 4%nat] -> (2 <= N_z)%nat ->
  box_at h tb bounds -> vector_at h position x -> vector_at h velocity w -> convert_velocity_to_SI w = Ok v ->
  trace_particle_wrapper fuel inner (field_3d_derivs_traceable (BackendSeries.samples h z) (table3d h elec) (table3d h mag)) bounds atol x v = Ok samples ->
  returns_trajectory h (tracer_3d_axial junk fuel inner TRACING_BLOCK_SIZE z elec mag tb position velocity atol) samples.
Proof.
  intros Fz Fe Fm HN Hb Hx Hw Hv H.
  exact (call_3d_axial h fuel inner TRACING_BLOCK_SIZE tb position velocity bounds x v atol block_size Hb Hx (ex_intro _ w (conj Hw Hv)) junk z elec mag N_z samples Fz Fe Fm HN H).
Qed.
Print Assumptions C91_three_d_axial.
(** The constructors of effective point charges and of tracers copy the numbers they are given, whatever their dtype and layout. *)
Theorem C91_constructors h : (forall q j x N, array_ok h q -> array_ok h j -> array_ok h x -> nd_shape q = [N] ->
    (nd_shape j = [N; N_QUAD_2D] -> nd_shape x = [N; N_QUAD_2D; 2%nat] -> exists e h', new_eff q j x h = Done e h' /\ extends h h' /\ eff_ok h' N_QUAD_2D 2 e /\ line_eff h' e = line_charges h q j x) /\
    (nd_shape j = [N; N_TRIANGLE_QUAD] -> nd_shape x = [N; N_TRIANGLE_QUAD; 3%nat] -> exists e h', new_eff q j x h = Done e h' /\ extends h h' /\ eff_ok h' N_TRIANGLE_QUAD 3 e /\ triangle_eff h' e = triangle_charges h q j x)) /\
  (forall a b, array_ok h a -> nd_shape a = [3%nat; 2%nat] -> contents h a = box_cells b -> exists tb h', new_tracer_bounds a h = Done tb h' /\ extends h h' /\ box_at h' tb b).
Proof.
  split; [|apply tracer_bounds]. intros q j x N Aq Aj Ax Sq. split; intros Sj Sx.
  - destruct (new_eff_ok h q j x N N_QUAD_2D 2 Aq Aj Ax Sq Sj Sx (or_introl eq_refl)) as (e & h' & R & E & O & Cq & Cj & Cx & Sq' & Sj' & Sx'). exists e, h'. split; [exact R|]. split; [exact E|]. split; [exact O|]. now apply (same_line h h' q j x e N).
  - destruct (new_eff_ok h q j x N N_TRIANGLE_QUAD 3 Aq Aj Ax Sq Sj Sx (or_intror eq_refl)) as (e & h' & R & E & O & Cq & Cj & Cx & Sq' & Sj' & Sx'). exists e, h'. split; [exact R|]. split; [exact E|]. split; [exact O|]. now apply (same_triangle h h' q j x e N).
Qed.
Print Assumptions C91_constructors.
(** A memory with one charged ring, no magnets and no currents; bounds, a position and a velocity. *)
Definition some_memory : heap :=
  [mkbuffer Float64 [1]; mkbuffer Float64 (repeat 1 16); mkbuffer Float64 (repeat 2 32); mkbuffer Float64 []; mkbuffer Float64 [-1; 1; -1; 1; -1; 1]; mkbuffer Float64 [0; 0; 0]; mkbuffer Float64 [0; 0; 1];
   mkbuffer Float64 [-1; -1; -1; 1; 1; 1]; mkbuffer Int64 [-1; 1; -1; 1; -1; 1]].
Definition ring_charges : eff_charges := mkeff (view 0 0 [1%nat]) (view 1 0 [1%nat; 16%nat]) (view 2 0 [1%nat; 16%nat; 2%nat]).
Definition no_charges (Q D : nat) : eff_charges := mkeff (view 3 0 [0%nat]) (view 3 0 [0%nat; Q]) (view 3 0 [0%nat; Q; D]).
Lemma floats_view n s cells : nth_error some_memory n = Some (mkbuffer Float64 cells) -> (size s <= length cells)%nat -> floats some_memory (view n 0 s) s.
Proof. intros B L. destruct (view_array some_memory n 0 s cells B ltac:(lia)) as (A & S & T & _). now split. Qed.
Example C91_nonvacuous : eff_ok some_memory N_QUAD_2D 2 ring_charges /\ eff_ok some_memory N_QUAD_2D 2 (no_charges 16 2) /\ eff_ok some_memory N_TRIANGLE_QUAD 3 (no_charges 12 3) /\
  bounds_given some_memory (Some (view 4 0 [3%nat; 2%nat])) (Some (V3 (-1) (-1) (-1), V3 1 1 1)) /\ box_at some_memory (view 4 0 [3%nat; 2%nat]) (mkbox (V3 (-1) (-1) (-1)) (V3 1 1 1)) /\
  vector_at some_memory (view 5 0 [3%nat]) vzero /\ vector_at some_memory (view 6 0 [3%nat]) (V3 0 0 1) /\ (exists x, In x (q_items (line_eff some_memory ring_charges)) /\ fst x = 1).
Proof.
  split. { exists 1%nat. split; [|split]; (eapply floats_view; [reflexivity|cbn; lia]). }
  split. { exists 0%nat. split; [|split]; (eapply floats_view; [reflexivity|cbn; lia]). }
  split. { exists 0%nat. split; [|split]; (eapply floats_view; [reflexivity|cbn; lia]). }
  split. { split; [eapply floats_view; [reflexivity|cbn; lia]|]. split; reflexivity. }
  split. { split; [eapply floats_view; [reflexivity|cbn; lia]|reflexivity]. }
  split. { split; [eapply floats_view; [reflexivity|cbn; lia]|]. split; reflexivity. }
  split. { split; [eapply floats_view; [reflexivity|cbn; lia]|]. split; reflexivity. }
  eexists. split; [left; reflexivity|reflexivity].
Qed.

(** * C92: field.set_bounds(bounds), and then a trace in that field *)
Definition bound_and_trace (fuel inner : nat) (elec mag cur : eff_charges) (bounds tb position velocity : ndarray) (atol : R) : M (ndarray * ndarray) :=
  fb <~ set_bounds bounds ;; tracer_radial_bem fuel inner TRACING_BLOCK_SIZE elec mag cur fb tb position velocity atol.
(** Bounds of doubles that are stored row by row, with or without space between the numbers, take effect as given... *)
Theorem C92_rows_partial h fuel inner elec mag cur a s t lo hi tb bounds position velocity x w atol :
  eff_ok h N_QUAD_2D 2 elec -> eff_ok h N_QUAD_2D 2 mag -> eff_ok h N_TRIANGLE_QUAD 3 cur -> box_at h tb bounds -> vector_at h position x -> vector_at h velocity w ->
  floats h a [3%nat; 2%nat] -> nd_strides a = [s; t] -> (Z.abs t <= Z.abs s)%Z -> contents h a = bounds_cells (lo, hi) ->
  outcome_of h (bound_and_trace fuel inner elec mag cur a tb position velocity atol)
    (tracer_call fuel inner (mkbem FieldRadialBEM (line_eff h elec) (line_eff h mag) (triangle_eff h cur) (Some (lo, hi))) bounds atol x w).
Proof.
  intros Oe Om Oc Hb Hx Hw Fa Sa L C. destruct (set_bounds_rows h a s t (lo, hi) Fa Sa L C) as (fb & h' & R & E & G). apply (outcome_bnd h _ _ _ h' _ R E).
  rewrite <- (line_extends _ _ _ _ _ E Oe), <- (line_extends _ _ _ _ _ E Om), <- (triangle_extends _ _ _ _ _ E Oc).
  apply C91_radial; [eapply eff_extends; eassumption|eapply eff_extends; eassumption|eapply eff_extends; eassumption|exact G|eapply box_extends; eassumption|eapply vec_extends; eassumption|eapply vec_extends; eassumption].
Qed.
Print Assumptions C92_rows_partial.
(** ... but those stored column by column (the transpose of an array of two points, for instance) are read in the wrong order: the trace is the one with other bounds. *)
Theorem C92_columns_refuted h fuel inner elec mag cur a s t lo hi tb bounds position velocity x w atol :
  eff_ok h N_QUAD_2D 2 elec -> eff_ok h N_QUAD_2D 2 mag -> eff_ok h N_TRIANGLE_QUAD 3 cur -> box_at h tb bounds -> vector_at h position x -> vector_at h velocity w ->
  floats h a [3%nat; 2%nat] -> nd_strides a = [s; t] -> (Z.abs s < Z.abs t)%Z -> contents h a = bounds_cells (lo, hi) ->
  outcome_of h (bound_and_trace fuel inner elec mag cur a tb position velocity atol)
    (tracer_call fuel inner (mkbem FieldRadialBEM (line_eff h elec) (line_eff h mag) (triangle_eff h cur) (Some (V3 (vx lo) (vz lo) (vy hi), V3 (vy lo) (vx hi) (vz hi)))) bounds atol x w).
Proof.
  intros Oe Om Oc Hb Hx Hw Fa Sa L C. destruct (set_bounds_columns h a s t lo hi Fa Sa L C) as (fb & h' & R & E & G). apply (outcome_bnd h _ _ _ h' _ R E).
  rewrite <- (line_extends _ _ _ _ _ E Oe), <- (line_extends _ _ _ _ _ E Om), <- (triangle_extends _ _ _ _ _ E Oc).
  exact (outcome_radial_bem h' fuel inner TRACING_BLOCK_SIZE tb position velocity bounds x w atol block_size (box_extends _ _ _ _ E Hb) (vec_extends _ _ _ _ E Hx) (vec_extends _ _ _ _ E Hw) elec mag cur (Some fb) _
    (eff_extends _ _ _ _ _ E Oe) (eff_extends _ _ _ _ _ E Om) (eff_extends _ _ _ _ _ E Oc) G).
Qed.
Print Assumptions C92_columns_refuted.
(** For a box that is symmetric (lo.y <= lo.x is enough) no force at all acts on the electron in that trace. *)
Theorem C92_columns_no_force_refuted e m c lo hi : vy lo <= vx lo ->
  let f b := mkbem FieldRadialBEM e m c (Some b) in forall s, tracer_field (f (V3 (vx lo) (vz lo) (vy hi), V3 (vy lo) (vx hi) (vz hi))) s = Ok vzero.
Proof.
  intros L f s. unfold f, tracer_field, field_radial_traceable. cbn [b_class b_bounds vx vy]. destruct (ltb (vx lo) (vx (s_pos s))) eqn:E1; [|reflexivity]. destruct (ltb (vx (s_pos s)) (vy lo)) eqn:E2; [|reflexivity].
  apply ltb_true in E1, E2. lra.
Qed.
Print Assumptions C92_columns_no_force_refuted.
(** Bounds of integers: the call reads them as doubles. *)
Theorem C92_integers_refuted h fuel inner elec mag cur a tb bounds position velocity x w atol :
  eff_ok h N_QUAD_2D 2 elec -> eff_ok h N_QUAD_2D 2 mag -> eff_ok h N_TRIANGLE_QUAD 3 cur -> box_at h tb bounds -> vector_at h position x -> vector_at h velocity w ->
  array_ok h a -> nd_shape a = [3%nat; 2%nat] -> nd_dtype a = Int64 -> within bounds x = true -> w <> vzero -> (1 <= fuel)%nat -> (1 <= inner)%nat ->
  bound_and_trace fuel inner elec mag cur a tb position velocity atol h = Fault.
Proof.
  intros Oe Om Oc Hb Hx Hw Aa Sa Ta Hin Nw Hf Hi. destruct fuel as [|fuel]; [lia|]. destruct inner as [|inner]; [lia|].
  destruct (set_bounds_integers h a Aa Sa Ta) as (fb & h' & R & E & P & cells & N). unfold bound_and_trace. rewrite (bnd_done _ _ _ _ _ R). rewrite <- P in N.
  apply (radial_bem_faults h' fuel inner TRACING_BLOCK_SIZE tb position velocity bounds x w atol block_size (box_extends _ _ _ _ E Hb) (vec_extends _ _ _ _ E Hx) (vec_extends _ _ _ _ E Hw) Hin elec mag cur fb cells); try assumption; eapply eff_extends; eassumption.
Qed.
Print Assumptions C92_integers_refuted.
(** The arrays of the three theorems exist, with the bounds -1 to 1; and the force inside of these bounds is not zero: on the axis, two above the centre of a charged ring. *)
Definition by_columns : ndarray := mkarray (mkptr 7 0) [3%nat; 2%nat] [1%Z; 3%Z] Float64.
Definition integers : ndarray := mkarray (mkptr 8 0) [3%nat; 2%nat] [2%Z; 1%Z] Int64.
Example C92_nonvacuous : let box := (V3 (-1) (-1) (-1), V3 1 1 1) in
  (floats some_memory (view 4 0 [3%nat; 2%nat]) [3%nat; 2%nat] /\ contents some_memory (view 4 0 [3%nat; 2%nat]) = bounds_cells box) /\
  (floats some_memory by_columns [3%nat; 2%nat] /\ contents some_memory by_columns = bounds_cells box) /\
  (array_ok some_memory integers /\ contents some_memory integers = bounds_cells box) /\
  (exists e, tracer_field (mkbem FieldRadialBEM e empty_2d empty_3d (Some box)) (mkstate (V3 0 0 (1 / 2)) vzero) <> Ok vzero).
Proof.
  intros box. split; [|split; [|split]].
  - split; [eapply floats_view; [reflexivity|cbn; lia]|reflexivity].
  - split; [|reflexivity]. split; [|split; reflexivity]. split; [reflexivity|]. eexists. split; [reflexivity|]. split; [reflexivity|]. intros idx I. cbn in I. repeat (destruct I as [<-|I]; [cbn; lia|]). destruct I.
  - split; [|reflexivity]. split; [reflexivity|]. eexists. split; [reflexivity|]. split; [reflexivity|]. intros idx I. cbn in I. repeat (destruct I as [<-|I]; [cbn; lia|]). destruct I.
  - exists (mkcharges LINE_RULE [(1, [(1, V3 1 0 (-3 / 2))])]). set (q := mkcharges _ _). pose proof PI_RGT_0 as Hpi.
    assert (n0 : norm_2d 0 0 = 0) by (unfold norm_2d; replace (0 * 0 + 0 * 0) with 0 by ring; exact sqrt_0).
    assert (E : vz (field_radial (V3 0 0 (1 / 2)) q) <> 0).
    { unfold field_radial, from_cylinder. cbn [vx vy vz]. rewrite n0. destruct (Rle_dec MIN_DISTANCE_AXIS 0) as [B|_]; [unfold MIN_DISTANCE_AXIS in B; lra|]. cbn [vz].
      unfold evaluate, source_sum, q. cbn [q_items map fst snd vx vz Rsum fold_right]. unfold dz1_potential_radial_ring. replace (-3 / 2 - 1 / 2) with (0 - 2) by field.
      replace (((0 - 2) * (0 - 2) + (1 - 0) * (1 - 0)) / (4 * 0 * 0 + 4 * (1 - 0) * 0 + (0 - 2) * (0 - 2) + (1 - 0) * (1 - 0))) with 1 by field.
      replace (4 * 0 * 0 + 4 * (1 - 0) * 0 + (0 - 2) * (0 - 2) + (1 - 0) * (1 - 0)) with 5 by ring.
      assert (S5 : 0 < sqrt 5) by (apply sqrt_lt_R0; lra). pose proof ellipem1_1 as P.
      replace (- _) with (2 * ellipem1 1 / (PI * (5 * sqrt 5))) by (field; split; lra). apply Rgt_not_eq. apply Rdiv_lt_0_compat; [lra|]. apply Rmult_lt_0_compat; lra. }
    intros Z. apply E. unfold tracer_field, field_radial_traceable, box in Z. cbn [b_class s_pos s_vel b_bounds vx vy b_elec b_mag b_cur] in Z.
    rewrite (proj2 (ltb_true (-1) 0)), (proj2 (ltb_true 0 1)) in Z by lra. cbn [andb] in Z. assert (G : forall a b : vec3, Ok a = Ok b -> vz a = vz b) by (intros a b [= ->]; reflexivity). apply G in Z.
    unfold combine_elec_magnetic_field in Z. cbn [vx vy vz vadd cross vscale vzero] in Z. rewrite !Rmult_0_l in Z. lra.
Qed.
