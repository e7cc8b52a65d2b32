(** Property theorems about moved configurations: C93. *)
From Coq Require Import Reals Lra Lia.
From Verif Require Import Base BaseFacts Float64 OrientModel MeshModel MeshSpec MeshFacts MeshOps MeshMisc MeshExamples Vec GeomModel GeomFacts Props_Geom QuadModel
  ExcitationModel FieldModel TriangleModel SolverModel SolverFacts Props_Excitation Props_Solver MatrixModel MatrixSpec MatrixFacts Props_Matrix SeriesModel DispatchModel TracingModel MotionModel MotionFacts MotionSolve MotionRadial MotionTrace.
Local Open Scope R_scope.

(** ** Specification *)
(** [f'] is [f] carried along by [T]: the same potentials at the moved points, fields that point along the
    moved directions, the same charges on the same elements, the same answer to every question about which
    kind of field it is. *)
Definition goes_along (T : vec3 -> vec3) (f f' : bem) : Prop :=
  (forall p, electrostatic_potential_at_point f' (T p) = electrostatic_potential_at_point f p /\
             magnetostatic_potential_at_point f' (T p) = magnetostatic_potential_at_point f p /\
             electrostatic_field_at_point f' (T p) = carried T p (electrostatic_field_at_point f p) /\
             magnetostatic_field_at_point f' (T p) = carried T p (magnetostatic_field_at_point f p) /\
             potential_at_point f' (T p) = potential_at_point f p /\
             field_at_point f' (T p) = match field_at_point f p with Ok v => Ok (carried T p v) | Err x => Err x end) /\
  (forall i, charge_on_element f' i = charge_on_element f i /\ area_of_element f' i = area_of_element f i) /\
  b_class f' = b_class f /\ b_bounds f' = b_bounds f.
(** Both computations fail in the same way, or both succeed. *)
Definition same_outcome (P : bem -> bem -> Prop) (r r' : result bem) : Prop :=
  match r, r' with Ok f, Ok f' => P f f' | Err x, Err x' => x' = x | _, _ => False end.

(** ** Facts *)
Lemma rows3 e : mesh_ok (e_mesh e) -> e_symmetry e = THREE_D ->
  forall r v, In r (arows (match e_symmetry e with RADIAL => m_lines (e_mesh e) | THREE_D => m_triangles (e_mesh e) end)) -> np_take (m_points (e_mesh e)) r = Ok v -> length v = 3%nat.
Proof.
  intros M -> r v Hr Hv. destruct (in_triangles _ _ _ _ _ M) as [W R]. destruct (R r Hr) as [L _].
  assert (Hw : aw (m_triangles (e_mesh e)) = 3%nat). { destruct W as [W|[]]; [intros E; rewrite E in Hr; destruct Hr|auto]. }
  apply mapM_ok in Hv. rewrite <- (Forall2_length _ _ _ Hv), L. exact Hw.
Qed.
Lemma three_of (pos : point -> vec3) (T : vec3 -> vec3) v v' : length v = 3%nat -> Forall2 (fun p p' => pos p' = T (pos p)) v v' -> exists a b c, map pos v = [a; b; c] /\ map pos v' = [T a; T b; T c].
Proof.
  intros L F. destruct v as [|x [|y [|z [|]]]]; try discriminate. do 3 (inversion F as [|? ? ? ? ?E ?F]; subst; clear F; rename F0 into F).
  inversion F; subst. exists (pos x), (pos y), (pos z). cbn. rewrite E, E0, E1. split; reflexivity.
Qed.
Lemma nth_rv (P : list point -> list point -> Prop) vs vs' i : Forall2 P vs vs' -> (P (nth i vs []) (nth i vs' []) /\ (i < length vs)%nat) \/ (nth i vs [] = [] /\ nth i vs' [] = []).
Proof.
  intros F. revert i. induction F as [|v v' vs vs' H F IH]; intros [|i]; cbn; [right; auto..| |].
  - left. split; [exact H|lia].
  - destruct (IH i) as [[H1 H2]|H1]; [left; split; [exact H1|lia]|right; exact H1].
Qed.
Lemma goes_along_potential T f : bem_is_electrostatic (moved_bem T f) = bem_is_electrostatic f /\ bem_is_magnetostatic (moved_bem T f) = bem_is_magnetostatic f.
Proof. unfold bem_is_electrostatic, bem_is_magnetostatic, moved_bem, moved_charges. cbn [b_elec b_mag b_cur q_items]. rewrite !map_length. split; reflexivity. Qed.
Lemma goes_along_3d T f : isometry T -> b_class f = Field3D_BEM -> goes_along T f (moved_bem T f).
Proof.
  intros Iso Cl. split.
  - intros p. assert (E1 : electrostatic_potential_at_point (moved_bem T f) (T p) = electrostatic_potential_at_point f p).
    { unfold electrostatic_potential_at_point. cbn [moved_bem b_class b_elec]. rewrite Cl. apply iso_potential_3d, Iso. }
    assert (E2 : magnetostatic_potential_at_point (moved_bem T f) (T p) = magnetostatic_potential_at_point f p).
    { unfold magnetostatic_potential_at_point. cbn [moved_bem b_class b_mag]. rewrite Cl. apply iso_potential_3d, Iso. }
    assert (E3 : electrostatic_field_at_point (moved_bem T f) (T p) = carried T p (electrostatic_field_at_point f p)).
    { unfold electrostatic_field_at_point. cbn [moved_bem b_class b_elec]. rewrite Cl, (lin_carried T Iso). apply iso_field_3d, Iso. }
    assert (E4 : magnetostatic_field_at_point (moved_bem T f) (T p) = carried T p (magnetostatic_field_at_point f p)).
    { unfold magnetostatic_field_at_point. cbn [moved_bem b_class b_mag]. rewrite Cl, (lin_carried T Iso). apply iso_field_3d, Iso. }
    repeat split; auto; unfold potential_at_point, field_at_point; rewrite (proj1 (goes_along_potential T f)), (proj2 (goes_along_potential T f)).
    + rewrite E1, E2. reflexivity.
    + rewrite E3, E4. unfold pick. destruct (bem_is_electrostatic f), (bem_is_magnetostatic f); reflexivity.
  - split; [|split; reflexivity]. intros i. assert (G : area_of_element (moved_bem T f) i = area_of_element f i).
    { unfold area_of_element. cbn [moved_bem b_class b_elec moved_charges q_items]. rewrite Cl. unfold np_get. rewrite nth_error_map. destruct (nth_error (q_items (b_elec f)) i) as [x|]; [|reflexivity].
      cbn [option_map bind snd]. rewrite moved_area. reflexivity. }
    split; [|exact G]. unfold charge_on_element. rewrite G. destruct (area_of_element f i); [|reflexivity]. cbn [bind moved_bem b_elec moved_charges q_items].
    unfold np_get. rewrite nth_error_map. destruct (nth_error (q_items (b_elec f)) i); reflexivity.
Qed.
Lemma goes_along_radial d f : b_class f = FieldRadialBEM -> goes_along (along_axis d) f (moved_bem (along_axis d) f).
Proof.
  intros Cl. split.
  - intros p. rewrite !axis_carried. assert (E1 : electrostatic_potential_at_point (moved_bem (along_axis d) f) (along_axis d p) = electrostatic_potential_at_point f p).
    { unfold electrostatic_potential_at_point. cbn [moved_bem b_class b_elec]. rewrite Cl. apply axis_potential_radial. }
    assert (E2 : magnetostatic_potential_at_point (moved_bem (along_axis d) f) (along_axis d p) = magnetostatic_potential_at_point f p).
    { unfold magnetostatic_potential_at_point. cbn [moved_bem b_class b_mag]. rewrite Cl. apply axis_potential_radial. }
    assert (E3 : electrostatic_field_at_point (moved_bem (along_axis d) f) (along_axis d p) = electrostatic_field_at_point f p).
    { unfold electrostatic_field_at_point. cbn [moved_bem b_class b_elec]. rewrite Cl. apply axis_field_radial. }
    assert (E4 : magnetostatic_field_at_point (moved_bem (along_axis d) f) (along_axis d p) = magnetostatic_field_at_point f p).
    { unfold magnetostatic_field_at_point. cbn [moved_bem b_class b_mag b_cur]. rewrite Cl, axis_field_radial, axis_current_field. reflexivity. }
    repeat split; auto; unfold potential_at_point, field_at_point; rewrite (proj1 (goes_along_potential (along_axis d) f)), (proj2 (goes_along_potential (along_axis d) f)).
    + rewrite E1, E2. reflexivity.
    + rewrite E3, E4. unfold pick. destruct (bem_is_electrostatic f), (bem_is_magnetostatic f); cbn; rewrite ?axis_carried; reflexivity.
  - split; [|split; reflexivity]. intros i. assert (G : area_of_element (moved_bem (along_axis d) f) i = area_of_element f i).
    { unfold area_of_element. cbn [moved_bem b_class b_elec moved_charges q_items]. rewrite Cl. unfold np_get. rewrite nth_error_map. destruct (nth_error (q_items (b_elec f)) i) as [x|]; [|reflexivity].
      cbn [option_map bind snd]. rewrite (source_sum_moved (along_axis d) vx vx) by reflexivity. reflexivity. }
    split; [|exact G]. unfold charge_on_element. rewrite G. destruct (area_of_element f i); [|reflexivity]. cbn [bind moved_bem b_elec moved_charges q_items].
    unfold np_get. rewrite nth_error_map. destruct (nth_error (q_items (b_elec f)) i); reflexivity.
Qed.
Lemma no_currents nu e cs : has_current e = false -> current_charges nu e = Ok cs -> cs = empty_3d.
Proof. intros H. unfold current_charges. destruct (arows (m_triangles (e_mesh e))); [|rewrite H]; cbn; intros [= <-]; reflexivity. Qed.
Lemma no_magnetized nu v : magnetized nu v empty_3d = 0.
Proof. unfold magnetized, current_field, evaluate, from_cylinder. cbn [empty_3d q_items map Rsum]. destruct (Rle_dec _ _); cbn; ring. Qed.
(** The class of a solution. *)
Lemma solved_class nu o third e0 e f : solved_excitation o third e0 = Ok e -> solve_direct nu o third e0 = Ok f -> b_class f = if is_3d (e_mesh e) then Field3D_BEM else FieldRadialBEM.
Proof.
  intros S H. unfold solve_direct in H. rewrite S in H. cbn [bind] in H. destruct (is_magnetostatic e), (is_electrostatic e); cbn in H; try discriminate.
  - apply bind_ok in H. destruct H as (g & Hg & H). apply bind_ok in H. destruct H as (h & Hh & H).
    destruct (electrostatic_parts _ _ _ Hg) as (_ & _ & C). unfold bem_add in H. apply bind_ok in H. destruct H as (? & _ & H). apply bind_ok in H. destruct H as (? & _ & H).
    apply bind_ok in H. destruct H as (? & _ & H). rewrite C in H. destruct (is_3d (e_mesh e)); [discriminate|]. injection H as <-. reflexivity.
  - apply (magnetostatic_parts _ _ _ H).
  - apply (electrostatic_parts _ _ _ H).
Qed.

(** ** C93 Moving a configuration moves its field *)
(** Three dimensions: rotations, displacements and what they are composed of move the solution along.  A motion that
    turns left into right (a mirror) does so when no dielectric and no magnetizable material is present (it
    turns the normals of the unchanged triangles around).  If one problem cannot be solved, the other cannot
    for the same reason. *)
Theorem C93_three_d A o third e e' T :
  isometry T -> (proper T \/ forall n c, In (n, c) (e_types e) -> match c with DIELECTRIC _ | MAGNETIZABLE _ => False | _ => True end) ->
  mesh_ok (e_mesh e) -> e_symmetry e = THREE_D -> is_3d (e_mesh e) = true -> is_3d (e_mesh e') = true -> has_current e = false ->
  moved_excitation (an_pos A) T e e' ->
  same_outcome (goes_along T) (solve_direct (backend_numerics A) o third e) (solve_direct (backend_numerics A) o third e').
Proof.
  intros Iso Pr Ok3 Sym D3 D3' NoC M.
  assert (S : solved_excitation o third e = Ok e) by (unfold solved_excitation; rewrite (not_planar _ D3); reflexivity).
  assert (S' : solved_excitation o third e' = Ok e') by (unfold solved_excitation; rewrite (not_planar _ D3'); reflexivity).
  rewrite (moved_solved (backend_numerics A) (an_pos A) T e e' M) with (good := fun v => length v = 3%nat) (o := o) (third := third) (e0 := e) (e0' := e').
  - pose proof (solved_class (backend_numerics A) o third e e) as C. destruct (solve_direct (backend_numerics A) o third e) as [f|x]; [|reflexivity].
    cbn. apply goes_along_3d; [exact Iso|]. rewrite (C f S eq_refl), D3. reflexivity.
  - rewrite !not_planar by assumption. reflexivity.
  - rewrite D3, D3'. reflexivity.
  - apply rows3; assumption.
  - intros v v' [L F]. destruct (three_of _ _ _ _ L F) as (a & b & c & E & E'). cbn [nu_center backend_numerics]. unfold with_rows. rewrite E, E'. apply iso_mean, Iso.
  - intros v v' [L F]. rewrite (not_planar _ D3). destruct (three_of _ _ _ _ L F) as (a & b & c & E & E'). cbn [nu_triangle backend_numerics]. unfold with_rows. rewrite E, E'. apply iso_triangle_source, Iso.
  - intros vs vs' i j F. cbn [nu_potential backend_numerics]. unfold entry, with_rows.
    destruct (nth_rv _ _ _ i F) as [[[L G] _]|[-> ->]]; [|reflexivity]. destruct (three_of _ _ _ _ L G) as (a & b & c & -> & ->).
    destruct (nth_rv _ _ _ j F) as [[[L' G'] _]|[-> ->]]; [|reflexivity]. destruct (three_of _ _ _ _ L' G') as (a' & b' & c' & -> & ->). apply iso_potential_entry, Iso.
  - destruct Pr as [Pr|Pr]; [right; split|left].
    + intros K vs vs' i j F. cbn [nu_flux backend_numerics]. unfold entry, with_rows.
      destruct (nth_rv _ _ _ i F) as [[[L G] _]|[-> ->]]; [|reflexivity]. destruct (three_of _ _ _ _ L G) as (a & b & c & -> & ->).
      destruct (nth_rv _ _ _ j F) as [[[L' G'] _]|[-> ->]]; [|reflexivity]. destruct (three_of _ _ _ _ L' G') as (a' & b' & c' & -> & ->). apply iso_flux_entry; assumption.
    + intros v v' cs _ H. apply no_currents in H; [|exact NoC]. subst cs. change (moved_charges T empty_3d) with empty_3d. rewrite !no_magnetized. reflexivity.
    + intros n c H. apply Pr in H. destruct c; try reflexivity; contradiction.
  - left. exact NoC.
  - apply iso_inj, Iso.
  - exact S.
  - exact S'.
Qed.
Print Assumptions C93_three_d.

(** Moving and rotating (C12) are such motions; mirroring is one that turns left into right. *)
Theorem C93_motions : (forall d, isometry (move d) /\ proper (move d)) /\
  (forall a angle origin, angle <> 0 -> exists F f, rotate_about a angle origin = Ok F /\ (forall p, F p = Ok (f p)) /\ isometry f /\ proper f) /\
  (forall T U, isometry T -> isometry U -> isometry (fun p => U (T p)) /\ (proper T -> proper U -> proper (fun p => U (T p)))) /\
  (forall m, In m [mirror_xy; mirror_xz; mirror_yz] -> isometry m /\ ~ proper m).
Proof.
  split; [|split; [|split]].
  - intros d. split; [intros p q; unfold dist3; f_equal; unfold move; vec_ring|]. intros o a b c. unfold triple, move. f_equal; [f_equal; vec_ring|vec_ring].
  - intros ax angle origin Ha. destruct (rotate_rodrigues ax angle origin Ha) as (F & HF & Hf). exists F, (rodrigues (GeomFacts.unit_of ax) angle origin).
    split; [exact HF|]. split; [exact Hf|]. split; [intros p q; apply rodrigues_isometry, unit_of_unit|]. intros o a b c. pose proof (sin2_cos2 angle) as SC. unfold Rsqr in SC. unfold triple, rodrigues, dot, cross. destruct ax; cbn; set (s := sin angle) in *; set (k := cos angle) in *; clearbody s k;
      match goal with |- ?x = ?y => let X := fresh in assert (X : x = (s * s + k * k) * y) by ring; rewrite X, SC; ring end.
  - intros T U HT HU. split; [intros p q; rewrite HU; apply HT|]. intros PT PU o a b c. rewrite PU. apply PT.
  - intros m Hm. split.
    + destruct (C12_move_and_mirror vzero) as (_ & _ & _ & H). destruct Hm as [<-|[<-|[<-|[]]]]; apply H.
    + intros P. specialize (P vzero (V3 1 0 0) (V3 0 1 0) (V3 0 0 1)). unfold triple, dot, cross in P.
      destruct Hm as [<-|[<-|[<-|[]]]]; cbn in P; lra.
Qed.
Print Assumptions C93_motions.

(** Radial problems: the problem that is solved (with third order elements) displaced along the axis. *)
Theorem C93_radial A o third e0 e0' e e' d :
  solved_excitation o third e0 = Ok e -> solved_excitation o third e0' = Ok e' -> mesh_ok (e_mesh e) -> is_higher_order (e_mesh e) = true ->
  is_3d (e_mesh e) = false -> is_3d (e_mesh e') = false ->
  moved_excitation (an_pos A) (along_axis d) e e' ->
  same_outcome (goes_along (along_axis d)) (solve_direct (backend_numerics A) o third e0) (solve_direct (backend_numerics A) o third e0').
Proof.
  intros S S' Mok Ho D3 D3' M.
  assert (P : forall m, is_3d m = negb (is_2d m)).
  { intros m. unfold is_3d, is_2d. induction (m_points m) as [|p l IH]; [reflexivity|]. cbn. rewrite IH. destruct (f64_eqb (py p) 0%Z); reflexivity. }
  assert (Iso : isometry (along_axis d)) by apply axis_isometry. assert (Pr : proper (along_axis d)) by apply axis_proper.
  assert (W : forall (X : Type) (x0 : X) (ra ra' : vec3 -> vec3 -> vec3 -> vec3 -> X) (tr tr' : vec3 -> vec3 -> vec3 -> X) v v',
    Forall2 (fun p p' => an_pos A p' = along_axis d (an_pos A p)) v v' ->
    (forall a b c x, ra' (along_axis d a) (along_axis d b) (along_axis d c) (along_axis d x) = ra a b c x) ->
    (forall a b c, tr' (along_axis d a) (along_axis d b) (along_axis d c) = tr a b c) -> with_rows A x0 ra' tr' v' = with_rows A x0 ra tr v).
  { intros X x0 ra ra' tr tr' v v' F Hr Ht. unfold with_rows. assert (E : map (an_pos A) v' = map (along_axis d) (map (an_pos A) v)) by (induction F; cbn; congruence). rewrite E.
    destruct (map (an_pos A) v) as [|a [|b [|c [|x [|]]]]]; cbn [map]; auto. }
  assert (Wc : forall (X : Type) (g : X -> X) x0 ra tr v, with_rows A (g x0) (fun a b c x => g (ra a b c x)) (fun a b c => g (tr a b c)) v = g (with_rows A x0 ra tr v)).
  { intros X g x0 ra tr v. unfold with_rows. destruct (map (an_pos A) v) as [|a [|b [|c [|x [|]]]]]; reflexivity. }
  assert (Tri : forall v v', Forall2 (fun p p' => an_pos A p' = along_axis d (an_pos A p)) v v' -> nu_triangle (backend_numerics A) v' = moved_source (along_axis d) (nu_triangle (backend_numerics A) v)).
  { intros v v' F. cbn [nu_triangle backend_numerics]. rewrite <- Wc. apply W; [exact F|reflexivity|]. intros a b c. apply (iso_triangle_source _ Iso). }
  rewrite (moved_solved (backend_numerics A) (an_pos A) (along_axis d) e e' M) with (good := fun v => length v = 3%nat \/ length v = 4%nat) (o := o) (third := third) (e0 := e0) (e0' := e0').
  - pose proof (solved_class (backend_numerics A) o third e0 e) as C. destruct (solve_direct (backend_numerics A) o third e0) as [f|x]; [|reflexivity].
    cbn. apply goes_along_radial. rewrite (C f S eq_refl), D3. reflexivity.
  - rewrite P in D3, D3'. destruct (is_2d (e_mesh e)), (is_2d (e_mesh e')); try discriminate; reflexivity.
  - rewrite D3, D3'. reflexivity.
  - intros r v Hr Hv. pose proof (rows3 e Mok) as R3. destruct (e_symmetry e) eqn:Sym; [right|left; apply (R3 eq_refl r v Hr Hv)].
    destruct (in_lines _ _ _ _ _ Mok) as [_ R]. destruct (R r Hr) as [L _]. apply mapM_ok in Hv. rewrite <- (Forall2_length _ _ _ Hv), L. apply Nat.eqb_eq, Ho.
  - intros v v' [L F]. cbn [nu_center backend_numerics].
    assert (E : map (an_pos A) v' = map (along_axis d) (map (an_pos A) v)) by (clear L; induction F; cbn; congruence). unfold with_rows. rewrite E.
    destruct v as [|v1 [|v2 [|v3 [|v4 [|]]]]]; try (destruct L; discriminate); cbn [map]; [apply iso_mean, Iso|].
    rewrite axis_line_center. cbn [fst snd]. apply vec_eq; cbn; ring.
  - intros v v' [_ F]. destruct (is_2d (e_mesh e)); [|apply Tri, F]. cbn [nu_line backend_numerics]. rewrite <- Wc. apply W; [exact F| |reflexivity]. intros a b c x. apply axis_line_source.
  - intros vs vs' i j F. cbn [nu_potential backend_numerics]. unfold entry.
    assert (G : forall k, Forall2 (fun p p' => an_pos A p' = along_axis d (an_pos A p)) (nth k vs []) (nth k vs' [])) by (intros k; destruct (nth_rv _ _ _ k F) as [[[_ H] _]|[-> ->]]; [exact H|constructor]).
    apply W; [apply G| |]; intros; apply W; try apply G; intros; try reflexivity; [apply axis_potential_entry|apply iso_potential_entry, Iso].
  - right. split.
    + intros K vs vs' i j F. cbn [nu_flux backend_numerics]. unfold entry.
      assert (G : forall k, Forall2 (fun p p' => an_pos A p' = along_axis d (an_pos A p)) (nth k vs []) (nth k vs' [])) by (intros k; destruct (nth_rv _ _ _ k F) as [[[_ H] _]|[-> ->]]; [exact H|constructor]).
      apply W; [apply G| |]; intros; apply W; try apply G; intros; try reflexivity; [apply axis_flux_entry|apply iso_flux_entry; assumption].
    + intros v v' cs [L F] _. unfold magnetized. cbn [nu_center nu_normal backend_numerics].
      assert (E : map (an_pos A) v' = map (along_axis d) (map (an_pos A) v)) by (clear L; induction F; cbn; congruence). unfold with_rows. rewrite E.
      destruct v as [|v1 [|v2 [|v3 [|v4 [|]]]]]; try (destruct L; discriminate); cbn [map].
      * rewrite (iso_mean _ Iso), axis_current_field, (iso_normal_3d _ Iso Pr), axis_lin. reflexivity.
      * rewrite axis_line_center, axis_normal. cbn [fst snd].
        match goal with |- context [current_field (V3 ?x 0 (?z + d)) _] => replace (V3 x 0 (z + d)) with (along_axis d (V3 x 0 z)) by (apply vec_eq; cbn; ring) end.
        rewrite axis_current_field. reflexivity.
  - right. apply Tri.
  - apply iso_inj, Iso.
  - exact S.
  - exact S'.
Qed.
Print Assumptions C93_radial.

(** Tracing in the displaced field, from the displaced point and with displaced bounds, gives the displaced trace, with the
    same times and velocities (and the same exception, if any); planes that are displaced with it are crossed
    in the same state.  (Steps are chosen by the largest component of the error, which a rotation
    changes.) *)
Theorem C93_trace fuel inner f f' d bounds atol position velocity :
  goes_along (move d) f f' -> (b_class f = FieldRadialBEM -> b_bounds f = None) ->
  match tracer_call fuel inner f bounds atol position velocity, tracer_call fuel inner f' (displaced_box d bounds) atol (move d position) velocity with
  | Ok l, Ok l' => l' = map (displaced_sample d) l /\
      forall p0 n, match plane_intersection (map snd l) p0 n, plane_intersection (map snd l') (move d p0) n with
                   | Ok s, Ok s' => s' = displaced d s
                   | Err x, Err x' => x' = x
                   | _, _ => False
                   end
  | Err x, Err x' => x' = x
  | _, _ => False
  end.
Proof.
  intros (P & _ & Cl & Bd) NoB.
  assert (Hf : forall s, tracer_field f' (displaced d s) = tracer_field f s).
  { intros s. destruct (P (s_pos s)) as (_ & _ & E & M & _). assert (Cv : forall v, carried (move d) (s_pos s) v = v) by (intros v; unfold carried, move; vec_ring). rewrite Cv in E, M.
    unfold tracer_field, field_3d_traceable, field_radial_traceable. change (s_pos (displaced d s)) with (move d (s_pos s)). change (s_vel (displaced d s)) with (s_vel s). unfold electrostatic_field_at_point, magnetostatic_field_at_point in E, M. rewrite Cl in *.
    destruct (b_class f).
    - rewrite Bd, (NoB eq_refl). f_equal. unfold combine_elec_magnetic_field. cbv zeta. change (s_pos (displaced d s)) with (move d (s_pos s)). change (s_vel (displaced d s)) with (s_vel s).
      assert (C : forall a b : vec3, vadd a b = vadd b a) by (intros; vec_ring). rewrite (C (field_radial (move d (s_pos s)) (b_mag f'))), (C (field_radial (s_pos s) (b_mag f))). rewrite E, M. reflexivity.
    - f_equal. change (s_pos (displaced d s)) with (move d (s_pos s)). change (s_vel (displaced d s)) with (s_vel s). rewrite E, M. reflexivity. }
  unfold tracer_call. destruct (convert_velocity_to_SI velocity) as [w|]; [|reflexivity]. cbn [bind]. unfold trace_particle_wrapper.
  change (mkstate (move d position) w) with (displaced d (mkstate position w)). rewrite (displaced_blocks d (tracer_field f) (tracer_field f') Hf).
  destruct (trace_blocks fuel inner TRACING_BLOCK_SIZE (tracer_field f) bounds atol true 0 (mkstate position w)) as [l|]; [|reflexivity]. cbn [rmap].
  split; [reflexivity|]. intros p0 n. rewrite map_map. cbn [displaced_sample snd]. rewrite <- (map_map snd (displaced d)), displaced_plane.
  destruct (plane_intersection (map snd l) p0 n); reflexivity.
Qed.
Print Assumptions C93_trace.

(** A third of a turn about the diagonal, and the two triangles of C62 turned by it; a line element and a coil displaced
    along the axis. *)
Definition ex_turn (p : vec3) : vec3 := V3 (vz p) (vx p) (vy p).
Definition ex_turned V K : excitation :=
  mkexc (mkmesh [(f0, f0, f0); (f0, f1, f0); (f0, f0, f1); (f1, f0, f0)] (m_lines ex_tri_mesh) (m_triangles ex_tri_mesh) (m_plines ex_tri_mesh) (m_ptriangles ex_tri_mesh))
    ["a"; "b"]%string [("a"%string, VOLTAGE_FIXED V); ("b"%string, DIELECTRIC K)] THREE_D.
Definition f_two : Z := 4611686018427387904%Z.
Definition ex_dec2 (p : point) : vec3 := let '(x, y, z) := p in V3 (IZR (coord01 x)) (IZR (coord01 y)) (if Z.eqb z f_two then 2 else IZR (coord01 z)).
Definition ex_analysis2 : analysis := {| an_pos := ex_dec2; an_quad := fun f => f 0; an_integrate := fun f a b => (b - a) * f ((a + b) / 2); an_solve := solve_2 |}.
Definition ex_higher V K I : excitation :=
  mkexc (mkmesh [(f0, f0, f1); (f1, f0, f1); (f0, f0, f_two); (f1, f0, f_two)] (m_lines ex_line_mesh) (m_triangles ex_line_mesh) (m_plines ex_line_mesh) (m_ptriangles ex_line_mesh))
    ["a"; "b"; "coil"]%string [("a"%string, MAGNETOSTATIC_POT V); ("b"%string, MAGNETIZABLE K); ("coil"%string, CURRENT I)] RADIAL.
Example C93_nonvacuous o third V I : 
  (let e := ex_triangles V 3 in let e' := ex_turned V 3 in let A := ex_analysis (4 * PI) in
   isometry ex_turn /\ proper ex_turn /\ mesh_ok (e_mesh e) /\ e_symmetry e = THREE_D /\ is_3d (e_mesh e) = true /\ is_3d (e_mesh e') = true /\ has_current e = false /\
   moved_excitation (an_pos A) ex_turn e e' /\ exists f, solve_direct (backend_numerics A) o third e = Ok f) /\
  (let e := ex_magnetic V 3 I in let e' := ex_higher V 3 I in
   solved_excitation o third e = Ok e /\ solved_excitation o third e' = Ok e' /\ mesh_ok (e_mesh e) /\ is_higher_order (e_mesh e) = true /\
   is_3d (e_mesh e) = false /\ is_3d (e_mesh e') = false /\ moved_excitation (an_pos ex_analysis2) (along_axis 1) e e').
Proof.
  split; cbv zeta.
  - split; [|split; [|split; [|split; [|split; [|split; [|split; [|split]]]]]]].
    + intros p q. unfold dist3, norm. f_equal. cbn. ring.
    + intros p a b c. unfold triple, dot, cross. cbn. ring.
    + apply input_okb_ok; vm_compute; reflexivity.
    + reflexivity.
    + reflexivity.
    + reflexivity.
    + reflexivity.
    + split; [|split; [reflexivity|]].
      * split; [|repeat split]. cbn [e_mesh ex_triangles ex_turned ex_tri_mesh m_points an_pos ex_analysis]. repeat constructor.
      * repeat constructor.
    + destruct (C62_three_d_nonvacuous o third V) as (_ & _ & _ & _ & _ & H & _). exact H.
  - split; [reflexivity|]. split; [reflexivity|]. split; [apply input_okb_ok; vm_compute; reflexivity|]. split; [reflexivity|]. split; [reflexivity|]. split; [reflexivity|].
    split; [|split; [reflexivity|]].
    + split; [|repeat split]. cbn [e_mesh ex_magnetic ex_higher ex_line_mesh m_points an_pos ex_analysis2].
      repeat (constructor; [apply vec_eq; cbn; ring|]). constructor.
    + repeat constructor.
Qed.
(** Every three-dimensional solution and displacement meet the hypotheses of the theorem about traces. *)
Example C93_trace_nonvacuous f d : b_class f = Field3D_BEM -> goes_along (move d) f (moved_bem (move d) f).
Proof. intros H. apply goes_along_3d; [|exact H]. apply (proj1 C93_motions). Qed.
