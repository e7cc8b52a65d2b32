(** Property theorems about arithmetic on fields: C33. *)
From Coq Require Import Reals Lra Lia.
From Verif Require Import Base BaseFacts Float64 MeshModel Vec GeomModel OutwardFacts ExcitationModel FieldModel FieldFacts SolverModel SolverFacts SeriesModel DispatchModel DispatchFacts.
Local Open Scope R_scope.

(** ** C33 Field arithmetic *)
(** What works: the + operator on fields of radially symmetric geometries, as built by the solver... *)
Theorem C33_radial_fields_partial nu nu' o o' third third' e e' f g :
  solve_direct nu o third e = Ok f -> solve_direct nu' o' third' e' = Ok g -> b_class f = FieldRadialBEM -> b_class g = FieldRadialBEM ->
  exists h, py_add (VBem f) (VBem g) = Ok (VBem h) /\ bem_wf h /\ b_class h = FieldRadialBEM /\ forall p,
    electrostatic_potential_at_point h p = electrostatic_potential_at_point f p + electrostatic_potential_at_point g p /\
    magnetostatic_potential_at_point h p = magnetostatic_potential_at_point f p + magnetostatic_potential_at_point g p /\
    electrostatic_field_at_point h p = vadd (electrostatic_field_at_point f p) (electrostatic_field_at_point g p) /\
    magnetostatic_field_at_point h p = vadd (magnetostatic_field_at_point f p) (magnetostatic_field_at_point g p).
Proof.
  intros Hf Hg Cf Cg. apply solve_direct_wf in Hf. apply solve_direct_wf in Hg. destruct (radial_add f g Cf Cg Hf Hg) as (h & E & Ch & Q).
  exists h. split; [unfold py_add, or_reflected, add_method, bem_add_method; rewrite E; reflexivity|]. split; [exact (bem_add_wf _ _ _ Hf E)|]. split; [exact Ch|exact Q].
Qed.
Print Assumptions C33_radial_fields_partial.

(** ... sums of sums included (any field of the right shape)... *)
Theorem C33_radial_closed_partial f g : bem_wf f -> bem_wf g -> b_class f = FieldRadialBEM -> b_class g = FieldRadialBEM ->
  exists h, py_add (VBem f) (VBem g) = Ok (VBem h) /\ bem_wf h /\ b_class h = FieldRadialBEM /\ forall p,
    electrostatic_potential_at_point h p = electrostatic_potential_at_point f p + electrostatic_potential_at_point g p /\
    magnetostatic_potential_at_point h p = magnetostatic_potential_at_point f p + magnetostatic_potential_at_point g p /\
    electrostatic_field_at_point h p = vadd (electrostatic_field_at_point f p) (electrostatic_field_at_point g p) /\
    magnetostatic_field_at_point h p = vadd (magnetostatic_field_at_point f p) (magnetostatic_field_at_point g p).
Proof.
  intros Hf Hg Cf Cg. destruct (radial_add f g Cf Cg Hf Hg) as (h & E & Ch & Q).
  exists h. split; [unfold py_add, or_reflected, add_method, bem_add_method; rewrite E; reflexivity|]. split; [exact (bem_add_wf _ _ _ Hf E)|]. split; [exact Ch|exact Q].
Qed.
Print Assumptions C33_radial_closed_partial.

(** ... and all operators on solver.FieldRadialAxial: sums and differences of fields with the same samples,
    negation, and multiplication by a number from both sides. *)
Definition linear_in (h : axial) (k : R) (a : axial) (k' : R) (b : axial) : Prop :=
  forall elec p u v E F, axial_potential elec a p = Ok u -> axial_potential elec b p = Ok v -> axial_field elec a p = Ok E -> axial_field elec b p = Ok F ->
    axial_potential elec h p = Ok (k * u + k' * v) /\ axial_field elec h p = Ok (vadd (vscale k E) (vscale k' F)).
Definition axial_wf (a : axial) : Prop := new_axial (a_z a) (a_elec a) (a_mag a) = Ok a.

Lemma new_axial_lengths z e m e' m' a : new_axial z e m = Ok a -> length e' = length e -> length m' = length m -> new_axial z e' m' = Ok (mkaxial z e' m').
Proof.
  unfold new_axial. intros H He Hm. rewrite He, Hm. apply bind_ok in H. destruct H as (u1 & H1 & H). rewrite H1. cbn [bind].
  apply bind_ok in H. destruct H as (u2 & H2 & H). rewrite H2. cbn [bind]. destruct (np_get z 0); [|discriminate]. cbn [bind] in *. destruct (np_get z (length z - 1)); [|discriminate]. cbn [bind] in *.
  apply bind_ok in H. destruct H as (u3 & H3 & H). rewrite H3. reflexivity.
Qed.
Lemma new_axial_length z e m a : new_axial z e m = Ok a -> length e = (length z - 1)%nat /\ length m = (length z - 1)%nat.
Proof.
  unfold new_axial, py_assert. intros H. apply bind_ok in H. destruct H as (u1 & H1 & H). apply bind_ok in H. destruct H as (u2 & H2 & H).
  destruct (Nat.eqb_spec (length e) (length z - 1)); [|discriminate]. destruct (Nat.eqb_spec (length m) (length z - 1)); [|discriminate]. auto.
Qed.
Lemma wf_mk z e m : new_axial z e m = Ok (mkaxial z e m) -> axial_wf (mkaxial z e m).
Proof. intros H. exact H. Qed.
Lemma scaled a k : axial_wf a -> exists h, axial_mul_method SolverAxial a (VNum k) = Ok (Some (VAxial SolverAxial h)) /\ axial_wf h /\ a_z h = a_z a /\
  (a_elec h = table_scale k (a_elec a) /\ a_mag h = table_scale k (a_mag a)) /\ forall b, linear_in h k a 0 b.
Proof.
  intros W. unfold axial_mul_method, axial_call.
  assert (E : new_axial (a_z a) (table_scale k (a_elec a)) (table_scale k (a_mag a)) = Ok (mkaxial (a_z a) (table_scale k (a_elec a)) (table_scale k (a_mag a)))).
  { apply (new_axial_lengths _ _ _ _ _ _ W); unfold table_scale; apply map_length. }
  rewrite E. cbn [bind]. eexists. split; [reflexivity|]. split; [exact E|]. split; [reflexivity|]. split; [split; reflexivity|].
  intros b elec p u v F G Hu _ HF _. unfold axial_potential, axial_field in *. cbn [a_z a_elec a_mag]. split.
  - replace (if elec then table_scale k (a_elec a) else table_scale k (a_mag a)) with (table_scale k (if elec then a_elec a else a_mag a)) by (destruct elec; reflexivity).
    rewrite (potential_derivs_scale _ _ _ k _ Hu). f_equal. ring.
  - replace (if elec then table_scale k (a_elec a) else table_scale k (a_mag a)) with (table_scale k (if elec then a_elec a else a_mag a)) by (destruct elec; reflexivity).
    rewrite (field_derivs_scale _ _ _ k _ HF). f_equal. destruct F, G. unfold vadd, vscale; cbn. f_equal; ring.
Qed.
Lemma map2_len {A B C} (f : A -> B -> C) a b : length a = length b -> length (map2 f a b) = length a.
Proof. intros H. rewrite map2_length, H. apply Nat.min_id. Qed.
Lemma added a b : axial_wf a -> axial_wf b -> a_z a = a_z b -> exists h, axial_add_method SolverAxial a (VAxial SolverAxial b) = Ok (Some (VAxial SolverAxial h)) /\ axial_wf h /\ a_z h = a_z a /\
  linear_in h 1 a 1 b.
Proof.
  intros Wa Wb Ez. destruct (new_axial_length _ _ _ _ Wa) as [A1 A2]. destruct (new_axial_length _ _ _ _ Wb) as [B1 B2]. rewrite <- Ez in B1, B2.
  unfold axial_add_method. cbn [same_class]. destruct (list_eq_dec Req_EM_T (a_z a) (a_z b)) as [_|N]; [|contradiction].
  rewrite A1, A2, B1, B2, Nat.eqb_refl. cbn [py_assert bind]. unfold axial_call.
  assert (E : new_axial (a_z a) (table_add (a_elec a) (a_elec b)) (table_add (a_mag a) (a_mag b)) = Ok (mkaxial (a_z a) (table_add (a_elec a) (a_elec b)) (table_add (a_mag a) (a_mag b)))).
  { apply (new_axial_lengths _ _ _ _ _ _ Wa); unfold table_add; apply map2_len; [exact (eq_trans A1 (eq_sym B1))|exact (eq_trans A2 (eq_sym B2))]. }
  rewrite E. cbn [bind]. eexists. split; [reflexivity|]. split; [exact E|]. split; [reflexivity|].
  intros elec p u v F G Hu Hv HF HG. unfold axial_potential, axial_field in *. rewrite <- Ez in Hv, HG. cbn [a_z a_elec a_mag].
  replace (if elec then table_add (a_elec a) (a_elec b) else table_add (a_mag a) (a_mag b)) with (table_add (if elec then a_elec a else a_mag a) (if elec then a_elec b else a_mag b)) by (destruct elec; reflexivity).
  rewrite (potential_derivs_add _ _ _ _ _ _ Hu Hv), (field_derivs_add _ _ _ _ _ _ HF HG). split; f_equal; [ring|]. destruct F, G. unfold vadd, vscale; cbn. f_equal; ring.
Qed.
Theorem C33_axial_fields_partial a b k : axial_wf a -> axial_wf b -> a_z a = a_z b ->
  (exists h, py_add (VAxial SolverAxial a) (VAxial SolverAxial b) = Ok (VAxial SolverAxial h) /\ axial_wf h /\ linear_in h 1 a 1 b) /\
  (exists h, py_sub (VAxial SolverAxial a) (VAxial SolverAxial b) = Ok (VAxial SolverAxial h) /\ axial_wf h /\ linear_in h 1 a (-1) b) /\
  (exists h, py_neg (VAxial SolverAxial a) = Ok (VAxial SolverAxial h) /\ axial_wf h /\ linear_in h (-1) a 0 b) /\
  (exists h, py_mul (VAxial SolverAxial a) (VNum k) = Ok (VAxial SolverAxial h) /\ py_mul (VNum k) (VAxial SolverAxial a) = Ok (VAxial SolverAxial h) /\ axial_wf h /\ linear_in h k a 0 b).
Proof.
  intros Wa Wb Ez. split; [|split; [|split]].
  - destruct (added a b Wa Wb Ez) as (h & E & W & _ & L). exists h. split; [unfold py_add, or_reflected, add_method; rewrite E; reflexivity|]. auto.
  - destruct (scaled b (-1) Wb) as (n & En & Wn & Zn & Tn & Ln). assert (Ez' : a_z a = a_z n) by congruence. destruct (added a n Wa Wn Ez') as (h & E & W & _ & L).
    exists h. split.
    + unfold py_sub, py_neg, py_mul, or_reflected, mul_method, rmul_method. cbn [bind]. rewrite En. cbn [bind]. rewrite E. reflexivity.
    + split; [exact W|]. intros elec p u v F G Hu Hv HF HG. destruct (Ln b elec p v v G G Hv Hv HG HG) as [P1 P2]. destruct (L elec p _ _ _ _ Hu P1 HF P2) as [Q1 Q2].
      rewrite Q1, Q2. split; f_equal; [ring|]. destruct F, G. unfold vadd, vscale; cbn. f_equal; ring.
  - destruct (scaled a (-1) Wa) as (n & En & Wn & _ & _ & Ln). exists n. split; [unfold py_neg, py_mul, or_reflected, mul_method, rmul_method; cbn [bind]; rewrite En; reflexivity|]. auto.
  - destruct (scaled a k Wa) as (n & En & Wn & _ & _ & Ln). exists n. split; [unfold py_mul, or_reflected, mul_method, rmul_method; cbn [bind]; rewrite En; reflexivity|].
    split; [unfold py_mul, or_reflected, mul_method, rmul_method; cbn [bind]; rewrite En; reflexivity|]. auto.
Qed.
Print Assumptions C33_axial_fields_partial.

(** What does not work, although the documentation of both base classes promises it: on every field of the
    boundary element method, multiplication by a number, negation, subtraction and sum([...]) raise; fields
    of three-dimensional geometries cannot even be added. *)
Theorem C33_bem_operators_refuted f g k l :
  py_mul (VBem f) (VNum k) = Err AttributeError /\ py_mul (VNum k) (VBem f) = Err AttributeError /\
  py_neg (VBem f) = Err TypeError /\ py_sub (VBem f) (VBem g) = Err AttributeError /\
  py_sum (VBem f :: l) = Err AttributeError /\
  (b_class f = Field3D_BEM -> forall v, py_add (VBem f) (VBem g) <> Ok v).
Proof.
  repeat split; try reflexivity.
  - unfold py_sum. cbn. induction l as [|x l IH]; [reflexivity|exact IH].
  - intros C v. unfold py_add, or_reflected, add_method, bem_add_method, bem_add, value_of_bem. rewrite C.
    destruct (charges_add (b_elec f) (b_elec g)); cbn; [|discriminate]. destruct (charges_add (b_mag f) (b_mag g)); cbn; [|discriminate].
    destruct (charges_add (b_cur f) (b_cur g)); cbn; discriminate.
Qed.
Print Assumptions C33_bem_operators_refuted.
Theorem C33_three_d_fields_refuted nu nu' o o' third third' e e' f g :
  solve_direct nu o third e = Ok f -> solve_direct nu' o' third' e' = Ok g -> b_class f = Field3D_BEM -> b_class g = Field3D_BEM ->
  py_add (VBem f) (VBem g) = Err TypeError.
Proof.
  intros Hf Hg Cf Cg. apply solve_direct_wf in Hf. apply solve_direct_wf in Hg. unfold bem_wf in *. rewrite Cf in Hf. rewrite Cg in Hg. destruct Hf as (A & B & C), Hg as (A' & B' & C').
  destruct (charges_add_defined (b_elec f) (b_elec g) ltac:(congruence)) as (x & Hx & _).
  destruct (charges_add_defined (b_mag f) (b_mag g) ltac:(congruence)) as (m & Hm & _).
  destruct (charges_add_defined (b_cur f) (b_cur g) ltac:(congruence)) as (c & Hc & _).
  unfold py_add, or_reflected, add_method, bem_add_method, bem_add, value_of_bem. rewrite Hx, Hm, Hc, Cf. reflexivity.
Qed.
Print Assumptions C33_three_d_fields_refuted.
(** So a three-dimensional excitation with both voltages and magnetostatic potentials cannot be solved. *)
Theorem C33_three_d_mixed_refuted nu o third e e1 : solved_excitation o third e = Ok e1 -> is_3d (e_mesh e1) = true ->
  is_electrostatic e = true -> is_magnetostatic e = true -> forall f, solve_direct nu o third e <> Ok f.
Proof.
  intros Es D El Ma f H. destruct (solved_types _ _ _ _ Es) as [Et _]. unfold solve_direct in H. rewrite Es in H. cbn [bind] in H.
  assert (E1 : is_electrostatic e1 = true) by (unfold is_electrostatic in *; rewrite Et; exact El).
  assert (M1 : is_magnetostatic e1 = true) by (unfold is_magnetostatic in *; rewrite Et; exact Ma). rewrite E1, M1 in H. cbn [orb andb] in H.
  apply bind_ok in H. destruct H as (u & _ & H). apply bind_ok in H. destruct H as (fe & Hfe & H). apply bind_ok in H. destruct H as (fm & _ & H).
  apply solve_electrostatic_get in Hfe. destruct Hfe as (_ & _ & C). rewrite D in C. unfold bem_add in H. rewrite C in H.
  apply bind_ok in H. destruct H as (q1 & _ & H). apply bind_ok in H. destruct H as (q2 & _ & H). apply bind_ok in H. destruct H as (q3 & _ & H). discriminate.
Qed.
Print Assumptions C33_three_d_mixed_refuted.
(** Interpolated fields (interpolation.FieldRadialAxial): every operator fails an assertion. *)
Theorem C33_interpolated_refuted a b k :
  py_add (VAxial InterpolationAxial a) (VAxial InterpolationAxial b) = Err AssertionError /\
  py_sub (VAxial InterpolationAxial a) (VAxial InterpolationAxial b) = Err AssertionError /\
  py_neg (VAxial InterpolationAxial a) = Err AssertionError /\
  py_mul (VAxial InterpolationAxial a) (VNum k) = Err AssertionError /\ py_mul (VNum k) (VAxial InterpolationAxial a) = Err AssertionError.
Proof.
  repeat split; try reflexivity. unfold py_add, or_reflected, add_method, axial_add_method. cbn [same_class].
  destruct (list_eq_dec _ _ _); [|reflexivity]. cbn [py_assert bind]. destruct (_ =? _)%nat; [|reflexivity]. cbn [py_assert bind]. destruct (_ =? _)%nat; reflexivity.
Qed.
Print Assumptions C33_interpolated_refuted.

Example C33_nonvacuous :
  bem_wf (radial_bem (mkcharges LINE_RULE [(2, [(1, V3 1 0 0)])]) empty_2d empty_3d) /\
  (exists a, axial_wf a /\ a_z a = [0; 1] /\ axial_potential true a (V3 0 0 0) = Ok 3).
Proof.
  split; [cbn; auto|]. exists (mkaxial [0; 1] [fun _ => (0, 0, 0, 0, 0, 3)] [fun _ => poly6_zero]). split; [|split; [reflexivity|]].
  - unfold axial_wf, new_axial. cbn. destruct (Rlt_dec 0 1); [reflexivity|lra].
  - unfold axial_potential, potential_radial_derivs, series_derivs. cbn [a_z a_elec vz length Nat.sub np_get nth_error bind].
    destruct (Rle_dec 0 0); [|lra]. destruct (Rle_dec 0 1); [|lra].
    assert (I : series_index [0; 1] 0 1 0 = 0%nat).
    { unfold series_index, c_int. replace ((0 - 0) / (1 - 0)) with 0 by field. destruct (Rle_dec 0 0); [|lra].
      assert (Z : Int_part 0 = 0%Z). { pose proof (base_Int_part 0) as [B1 B2]. assert (Int_part 0 < 1)%Z by (apply lt_IZR; lra). assert (-1 < Int_part 0)%Z by (apply lt_IZR; lra). lia. }
      rewrite Z. reflexivity. }
    unfold np_get. cbn [nth_error bind]. rewrite I. cbn [nth_error bind]. f_equal. cbn [vx vy]. assert (N : norm_2d 0 0 = 0) by (unfold norm_2d; replace (0 * 0 + 0 * 0) with 0 by ring; exact sqrt_0).
    rewrite N. unfold potential_series, poly_at. field.
Qed.
