(** Property theorems about the solver: C30. *)
From Coq Require Import Reals Lra.
From Verif Require Import Base BaseFacts Float64 OrientModel MeshModel MeshFacts MeshOps MeshMisc MeshExamples Vec GeomModel OutwardFacts ExcitationModel ExcitationFacts
  Props_Excitation FieldModel FieldFacts SolverModel SolverFacts.
Local Open Scope R_scope.

(** ** C30 Superposition *)
(** numpy.linalg.solve is any function that, when it returns, returns the only solution ([linear_solver]).
    For an excitation of voltages and dielectrics: one field per name with a fixed voltage that is not
    zero; each is the solution of the whole problem with that voltage set to one and the others to zero;
    weighted with the applied voltages they add up to the solution, in every point, in potential and field. *)
Theorem C30_electrostatic_partial nu o third e fields f :
  linear_solver (nu_solve nu) -> NoDup (dkeys (e_types e)) -> (forall k c, dget (e_types e) k = Some c -> electrostatic_kind c) ->
  solve_direct_superposition nu o third e = Ok fields -> solve_direct nu o third e = Ok f ->
  NoDup (map fst fields) /\
  (forall n, In n (map fst fields) <-> exists v, v <> 0 /\ dget (e_types e) n = Some (VOLTAGE_FIXED v)) /\
  (forall n g, In (n, g) fields -> forall u, unit_excitation_of e n u -> solve_direct nu o third u = Ok g) /\
  forall p,
    electrostatic_potential_at_point f p = Rsum (map (fun ng => value_of e (fst ng) * electrostatic_potential_at_point (snd ng) p) fields) /\
    electrostatic_field_at_point f p = vsum (map (fun ng => vscale (value_of e (fst ng)) (electrostatic_field_at_point (snd ng) p)) fields) /\
    magnetostatic_potential_at_point f p = 0 /\ magnetostatic_field_at_point f p = vzero /\
    Forall (fun ng => magnetostatic_potential_at_point (snd ng) p = 0 /\ magnetostatic_field_at_point (snd ng) p = vzero) fields.
Proof.
  intros Hlin ND Kind Hsup Hdir. destruct (electrostatic_superposition nu o third e fields f Hlin ND Kind Hsup Hdir) as (Hn & Hu & Hs & Hm).
  split; [rewrite Hn; apply nonzero_sources_NoDup; exact ND|].
  split.
  { intros n. rewrite Hn, (nonzero_sources_In _ n ND). split.
    - intros (c & v & Hc & Ha & Hv). destruct (Kind n c Hc) as (x & h & y & [-> | [-> | ->]]); destruct Ha as [Q|Q]; try discriminate.
      injection Q as ->. exists v. auto.
    - intros (v & Hv & Hc). exists (VOLTAGE_FIXED v), v. split; [exact Hc|]. split; [left; reflexivity|exact Hv]. }
  split; [exact Hu|]. intros p. inversion Hm as [|f' l Hf Hg E1]; subst. 
  assert (Sup : superposes (b_elec f) (map (fun ng => (value_of e (fst ng), b_elec (snd ng))) fields)).
  { intros K. rewrite map_map. cbn [fst snd]. symmetry. apply Hs. }
  assert (Cl : forall ng, In ng fields -> b_class (snd ng) = b_class f).
  { intros ng Hin. rewrite Forall_forall in Hg. apply Hg. apply in_map. exact Hin. }
  split; [|split].
  - unfold electrostatic_potential_at_point.
    transitivity (Rsum (map (fun ng => value_of e (fst ng) * match b_class f with FieldRadialBEM => potential_radial p (b_elec (snd ng)) | Field3D_BEM => potential_3d p (b_elec (snd ng)) end) fields)).
    + destruct (b_class f); [rewrite (superposes_potential_radial _ _ p Sup)|rewrite (superposes_potential_3d _ _ p Sup)]; rewrite map_map; reflexivity.
    + apply Rsum_ext. intros ng Hin. rewrite (Cl ng Hin). reflexivity.
  - unfold electrostatic_field_at_point.
    transitivity (vsum (map (fun ng => vscale (value_of e (fst ng)) match b_class f with FieldRadialBEM => field_radial p (b_elec (snd ng)) | Field3D_BEM => field_3d p (b_elec (snd ng)) end) fields)).
    + destruct (b_class f); [rewrite (superposes_field_radial _ _ p Sup)|rewrite (superposes_field_3d _ _ p Sup)]; rewrite map_map; reflexivity.
    + f_equal. apply map_ext_in. intros ng Hin. rewrite (Cl ng Hin). reflexivity.
  - assert (Z : forall g, q_items (b_mag g) = [] -> q_items (b_cur g) = [] -> magnetostatic_potential_at_point g p = 0 /\ magnetostatic_field_at_point g p = vzero).
    { intros g M C. split; [apply no_charges_potential|apply no_charges_field]; assumption. }
    destruct Hf as (M & C & _). destruct (Z f M C) as [Z1 Z2]. split; [exact Z1|]. split; [exact Z2|].
    apply Forall_forall. intros ng Hin. rewrite Forall_forall in Hg. destruct (Hg (snd ng)) as (M' & C' & _); [apply in_map; exact Hin|]. apply Z; assumption.
Qed.
Print Assumptions C30_electrostatic_partial.

(** With currents (and possibly voltages, dielectrics and magnetic material, but no magnetostatic
    potential) the magnetisation superposes in the same way... *)
Theorem C30_magnetization_partial nu o third e fields f :
  linear_solver (nu_solve nu) -> NoDup (dkeys (e_types e)) -> (exists k i, dget (e_types e) k = Some (CURRENT i)) ->
  (forall k v, dget (e_types e) k <> Some (MAGNETOSTATIC_POT v)) ->
  solve_direct_superposition nu o third e = Ok fields -> solve_direct nu o third e = Ok f -> fields <> [] ->
  forall p, magnetostatic_potential_at_point f p = Rsum (map (fun ng => value_of e (fst ng) * magnetostatic_potential_at_point (snd ng) p) fields).
Proof.
  intros Hlin ND Cur NoPot Hsup Hdir Ne p.
  pose proof (magnetization_superposition nu o third e fields f Hlin ND Cur NoPot Hsup Hdir Ne) as Hs.
  assert (Mag : is_magnetostatic e = true).
  { destruct Cur as (k & i & Q). apply existsb_exists. exists (k, CURRENT i). split; [apply dget_In; exact Q|reflexivity]. }
  destruct (magnetostatic_fields nu o third e fields ND Mag Hsup) as (e1 & cs & E1 & _ & _ & Cl0).
  destruct (magnetostatic_direct nu o third e e1 f Mag E1 Hdir) as (Cf & _).
  assert (Cl : forall ng, In ng fields -> b_class (snd ng) = b_class f).
  { intros [n g] Hin. destruct (Cl0 n g Hin) as (_ & C & _). cbn [snd]. congruence. }
  unfold magnetostatic_potential_at_point. destruct (b_class f) eqn:Ef; unfold potential_radial, potential_3d; rewrite <- Hs; apply Rsum_ext; intros ng Hin;
    rewrite (Cl ng Hin); first [reflexivity | rewrite Ef; reflexivity].
Qed.
Print Assumptions C30_magnetization_partial.

(** ... but the rest of the property fails.  As soon as the excitation has a current or a magnetostatic
    potential, none of the returned fields has an electrostatic part: all voltages are lost. *)
Theorem C30_mixed_refuted nu o third e fields : NoDup (dkeys (e_types e)) -> is_magnetostatic e = true ->
  solve_direct_superposition nu o third e = Ok fields ->
  forall n g, In (n, g) fields -> bem_is_electrostatic g = false /\
    forall p, electrostatic_potential_at_point g p = 0 /\ electrostatic_field_at_point g p = vzero.
Proof.
  intros ND Mag Hsup n g Hin. destruct (magnetostatic_fields nu o third e fields ND Mag Hsup) as (e1 & cs & _ & _ & _ & Q).
  destruct (Q n g Hin) as (Z & _ & _). split; [unfold bem_is_electrostatic; rewrite Z; reflexivity|].
  intros p. split; [apply no_charges_electric_potential|apply no_charges_electric_field]; exact Z.
Qed.
Print Assumptions C30_mixed_refuted.
(** Each returned field carries the currents of all coils at their full value; so the weighted sum of the
    fields of the currents is the full field multiplied by the sum of all voltages and currents. *)
Theorem C30_currents_refuted nu o third e fields f : NoDup (dkeys (e_types e)) -> is_magnetostatic e = true ->
  solve_direct_superposition nu o third e = Ok fields -> solve_direct nu o third e = Ok f ->
  forall p, (forall n g, In (n, g) fields -> current_field p (b_cur g) = current_field p (b_cur f)) /\
    vsum (map (fun ng => vscale (value_of e (fst ng)) (current_field p (b_cur (snd ng)))) fields) =
    vscale (Rsum (map (fun ng => value_of e (fst ng)) fields)) (current_field p (b_cur f)).
Proof.
  intros ND Mag Hsup Hdir p. destruct (magnetostatic_fields nu o third e fields ND Mag Hsup) as (e1 & cs & E1 & Hcs & _ & Q).
  destruct (magnetostatic_direct nu o third e e1 f Mag E1 Hdir) as (_ & cs' & Hcs' & Hf). rewrite Hcs in Hcs'. injection Hcs' as <-.
  assert (C : forall n g, In (n, g) fields -> current_field p (b_cur g) = current_field p (b_cur f)).
  { intros n g Hin. destruct (Q n g Hin) as (_ & _ & E). apply current_field_items. rewrite E. symmetry. exact Hf. }
  split; [exact C|]. clear - C. induction fields as [|[n g] fields IH]; [simpl; unfold vzero, vscale; f_equal; ring|].
  cbn [map vsum fold_right Rsum fst snd]. fold (vsum (map (fun ng => vscale (value_of e (fst ng)) (current_field p (b_cur (snd ng)))) fields)).
  rewrite IH by (intros n' g' H; apply (C n' g'); right; exact H). rewrite (C n g (or_introl eq_refl)).
  destruct (current_field p (b_cur f)) as [x y z]. unfold vadd, vscale. cbn [vx vy vz]. f_equal; ring.
Qed.
Print Assumptions C30_currents_refuted.

(** A concrete problem: one curved line [a] and one triangle [coil] in the plane y = 0, with a solver for
    one unknown. *)
Definition solve_1 (A : list (list R)) (F : list R) : result (list R) :=
  match A, F with
  | [[a]], [f] => if Req_EM_T a 0 then Err ValueError else Ok [f / a]
  | _, _ => Err ValueError
  end.
Definition ex_nu : numerics := {|
  nu_line := fun _ => [(1, V3 1 0 0)]; nu_triangle := fun _ => [(1, V3 1 0 0)]; nu_center := fun _ => vzero;
  nu_potential := fun _ _ _ => 2; nu_flux := fun _ _ _ _ => 1; nu_normal := fun _ => (1, 0); nu_solve := solve_1 |}.
Definition ex_mesh : mesh := mkmesh [(f0, f0, f0); (f1, f0, f0); (f0, f0, f1); (f1, f0, f1)] (mkarr 4%nat [[0; 1; 2; 3]%nat]) (mkarr 3%nat [[1; 2; 3]%nat])
  [("a"%string, [0%nat])] [("coil"%string, [0%nat])].
Definition ex_voltage v := mkexc ex_mesh ["a"; "coil"]%string [("a"%string, VOLTAGE_FIXED v)] RADIAL.
Definition ex_mixed v i := mkexc ex_mesh ["a"; "coil"]%string [("a"%string, VOLTAGE_FIXED v); ("coil"%string, CURRENT i)] RADIAL.
Lemma solve_1_linear : linear_solver (nu_solve ex_nu).
Proof.
  intros A F x H. cbn [nu_solve ex_nu] in H. unfold solve_1 in H. destruct A as [|[|a [|]] [|]]; try discriminate. destruct F as [|f [|]]; try discriminate.
  destruct (Req_EM_T a 0) as [|N]; [discriminate|]. injection H as <-. split.
  - split; [reflexivity|]. unfold matvec, dotp. cbn. f_equal. field. exact N.
  - intros y [L E]. destruct y as [|y [|]]; try discriminate. unfold matvec, dotp in E. cbn in E. injection E as E. f_equal. rewrite <- E. field. exact N.
Qed.
Lemma nonzero_yes v : v <> 0 -> nonzero v = true.
Proof. intros H. unfold nonzero. destruct (Req_EM_T v 0); [contradiction|reflexivity]. Qed.
Lemma solve_1_2 f : solve_1 [[2]] [f] = Ok [f / 2].
Proof. unfold solve_1. destruct (Req_EM_T 2 0); [lra|reflexivity]. Qed.

Example C30_nonvacuous o third v : v <> 0 -> exists fields f,
  solve_direct_superposition ex_nu o third (ex_voltage v) = Ok fields /\ solve_direct ex_nu o third (ex_voltage v) = Ok f /\
  map fst fields = ["a"%string] /\ q_items (b_elec f) = [(v / 2, [(1, V3 1 0 0)])].
Proof.
  intros Hv. eexists. eexists. split; [|split; [|split]].
  - unfold solve_direct_superposition, ex_voltage. cbn [solved_excitation is_2d is_higher_order e_mesh ex_mesh m_points m_lines aw].
    assert (S : solved_excitation o third (ex_voltage v) = Ok (ex_voltage v)) by reflexivity. unfold ex_voltage in S. rewrite S. cbn [bind].
    assert (Sp : split_for_superposition (ex_voltage v) = Ok [("a"%string, ex_voltage 1)]).
    { unfold split_for_superposition, nonzero_sources, ex_voltage. cbn [e_types filter snd source_value]. rewrite (nonzero_yes v Hv). reflexivity. }
    unfold ex_voltage in Sp. rewrite Sp. cbn [bind]. cbn -[IZR solve_1]. rewrite (solve_1_2 1). cbn -[IZR]. reflexivity.
  - unfold solve_direct. assert (S : solved_excitation o third (ex_voltage v) = Ok (ex_voltage v)) by reflexivity. rewrite S. cbn [bind].
    unfold ex_voltage. cbn -[IZR solve_1]. rewrite solve_1_2. cbn -[IZR]. reflexivity.
  - reflexivity.
  - reflexivity.
Qed.
Print Assumptions C30_nonvacuous.

(** In the mixed problem the returned fields are wrong: with 5 volts and a current of 1, the potential on
    the axis is lost, and the field of the current is counted six times. *)
Lemma chebyshev_1 A B : chebyshev A B 1 = Rsum (map (fun iab => fst (snd iab)) (combine (arange 8) (combine A B))).
Proof.
  unfold chebyshev. apply Rsum_ext. intros [i [a b]] _. cbn [fst snd]. replace (1 / 1) with 1 by field. rewrite ln_1, pow1. ring.
Qed.
Lemma ellipkm1_1_pos : 0 < ellipkm1 1.
Proof.
  unfold ellipkm1. rewrite chebyshev_1. cbn -[IZR]. assert (0 < ln 4) by (rewrite <- ln_1; apply ln_increasing; lra). lra.
Qed.
Lemma ellipem1_1_pos : 0 < ellipem1 1.
Proof. unfold ellipem1. rewrite chebyshev_1. cbn -[IZR]. lra. Qed.
Lemma norm_2d_0 : norm_2d 0 0 = 0.
Proof. unfold norm_2d. replace (0 * 0 + 0 * 0) with 0 by ring. apply sqrt_0. Qed.
Lemma ring_on_axis : 0 < potential_radial_ring 0 0 1 0.
Proof.
  unfold potential_radial_ring. cbv zeta. replace (((0 - 0) ^ 2 + (1 - 0) ^ 2) / ((0 - 0) ^ 2 + (1 - 0) ^ 2 + 4 * 0 * (1 - 0) + 4 * 0 ^ 2)) with 1 by field.
  replace ((0 - 0) ^ 2 + (1 - 0 + 2 * 0) ^ 2) with 1 by ring. rewrite sqrt_1. pose proof ellipkm1_1_pos as K. pose proof PI_RGT_0 as P.
  apply Rdiv_lt_0_compat; [|lra]. apply Rmult_lt_0_compat; [|lra]. apply Rmult_lt_0_compat; [|exact K]. apply Rdiv_lt_0_compat; lra.
Qed.
Lemma current_ring_on_axis : 0 < snd (current_field_radial_ring 0 0 1 0).
Proof.
  unfold current_field_radial_ring. cbv zeta. destruct (Rlt_dec 1 MIN_DISTANCE_AXIS) as [Q|_]; [unfold MIN_DISTANCE_AXIS in Q; lra|]. cbn [snd].
  replace ((0 - 0) ^ 2 + (1 + 0) ^ 2) with 1 by ring. rewrite sqrt_1. replace ((0 - 0) ^ 2 + (0 - 1) ^ 2) with 1 by ring.
  replace (4 * 0 * 1 / 1) with 0 by field. replace ((1 ^ 2 - (0 - 0) ^ 2 - 0 ^ 2) / 1) with 1 by field.
  unfold ellipe, ellipk. destruct (Rle_dec 0 0) as [_|N]; [|lra]. destruct (Rle_dec 0 1) as [_|N]; [|lra]. destruct (Rlt_dec (-1) 0) as [_|N]; [|lra].
  replace (1 - 0) with 1 by ring. pose proof ellipkm1_1_pos. pose proof ellipem1_1_pos. pose proof PI_RGT_0 as P.
  apply Rmult_lt_0_compat; [|lra]. replace (1 / PI * 1 / (2 * 1)) with (/ 2 * / PI) by (field; lra). apply Rmult_lt_0_compat; [lra|]. apply Rinv_0_lt_compat. exact P.
Qed.
Theorem C30_example o third : exists fields f,
  solve_direct_superposition ex_nu o third (ex_mixed 5 1) = Ok fields /\ solve_direct ex_nu o third (ex_mixed 5 1) = Ok f /\
  electrostatic_potential_at_point f vzero <> 0 /\
  Rsum (map (fun ng => value_of (ex_mixed 5 1) (fst ng) * electrostatic_potential_at_point (snd ng) vzero) fields) = 0 /\
  vz (magnetostatic_field_at_point f vzero) <> 0 /\
  vz (vsum (map (fun ng => vscale (value_of (ex_mixed 5 1) (fst ng)) (magnetostatic_field_at_point (snd ng) vzero)) fields)) =
    6 * vz (magnetostatic_field_at_point f vzero).
Proof.
  eexists. eexists. split; [|split; [|split; [|split; [|split]]]].
  - unfold solve_direct_superposition. assert (S : solved_excitation o third (ex_mixed 5 1) = Ok (ex_mixed 5 1)) by reflexivity. rewrite S. cbn [bind].
    assert (Sp : split_for_superposition (ex_mixed 5 1) = Ok [("a"%string, ex_mixed 1 0); ("coil"%string, ex_mixed 0 1)]).
    { unfold split_for_superposition, nonzero_sources, ex_mixed. cbn [e_types filter snd source_value]. rewrite (nonzero_yes 5), (nonzero_yes 1) by lra. reflexivity. }
    rewrite Sp. cbn [bind]. unfold ex_mixed. cbn -[IZR solve_1]. rewrite !solve_1_2. cbn -[IZR]. reflexivity.
  - unfold solve_direct. assert (S : solved_excitation o third (ex_mixed 5 1) = Ok (ex_mixed 5 1)) by reflexivity. rewrite S. cbn [bind].
    unfold ex_mixed. cbn -[IZR solve_1 charges_add]. rewrite solve_1_2. cbn -[IZR charges_add]. unfold bem_add. cbn -[IZR]. reflexivity.
  - unfold electrostatic_potential_at_point, potential_radial, evaluate, vzero. cbn -[IZR potential_radial_ring norm_2d pow]. rewrite norm_2d_0.
    pose proof ring_on_axis. lra.
  - cbn -[IZR]. unfold electrostatic_potential_at_point, potential_radial, evaluate. cbn -[IZR]. ring.
  - unfold magnetostatic_field_at_point, current_field, field_radial, from_cylinder, vzero. cbn -[IZR current_field_radial_ring norm_2d]. rewrite norm_2d_0.
    destruct (Rle_dec MIN_DISTANCE_AXIS 0) as [Q|_]; [unfold MIN_DISTANCE_AXIS in Q; lra|]. unfold evaluate. cbn -[IZR current_field_radial_ring].
    pose proof current_ring_on_axis. lra.
  - unfold magnetostatic_field_at_point, current_field, field_radial, from_cylinder, vzero. cbn -[IZR current_field_radial_ring norm_2d]. rewrite norm_2d_0.
    destruct (Rle_dec MIN_DISTANCE_AXIS 0) as [Q|_]; [unfold MIN_DISTANCE_AXIS in Q; lra|]. unfold evaluate. cbn -[IZR current_field_radial_ring]. 
    unfold value_of. cbn -[IZR current_field_radial_ring]. field.
Qed.
Print Assumptions C30_example.
