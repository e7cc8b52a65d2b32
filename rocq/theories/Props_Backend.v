(** Property theorems about calls of the compiled backend: C88 (memory) and C89 (values). *)
From Coq Require Import Reals Lra.
From Verif Require Import Base BaseFacts Vec GeomModel MemModel FieldModel TriangleModel SeriesModel Axial3DModel MatrixModel MemFacts BackendModel BackendSafe BackendValues BackendCalls BackendReturns BackendTables BackendBuffers BackendMatrix BackendSeries BackendSeries3D BackendUnsafe BackendFaults BackendLink BackendAssemble BackendTraj.
From Verif Require TracingModel.
Local Open Scope R_scope.
Local Open Scope mem_scope.

(** * C88: no call reads or writes outside the arrays.
    [array_ok h a]: what numpy guarantees of an array in memory [h], whatever its dtype, shape and strides.
    [nofault h call]: the call in memory [h] returns, raises an exception or exits, without an access outside a buffer
    or with another item type. *)
Theorem C88_fields : forall h point charges jac pos,
  array_ok h point -> array_ok h charges -> array_ok h jac -> array_ok h pos ->
  nofault h (potential_radial_py point charges jac pos) /\ nofault h (field_radial_py point charges jac pos) /\
  nofault h (potential_3d_py point charges jac pos) /\ nofault h (field_3d_py point charges jac pos) /\
  nofault h (current_field_py point charges jac pos) /\ (forall z, nofault h (current_potential_axial_py z charges jac pos)).
Proof.
  intros. split; [|split; [|split; [|split; [|split]]]]; [apply nf_potential_radial|apply nf_field_radial|apply nf_potential_3d|apply nf_field_3d|apply nf_current_field|intros z; apply nf_current_potential_axial]; assumption.
Qed.
Print Assumptions C88_fields.
Theorem C88_axial : forall h z charges jac pos,
  array_ok h z -> array_ok h charges -> array_ok h jac -> array_ok h pos ->
  nofault h (axial_derivatives_radial_py z charges jac pos) /\ nofault h (current_axial_derivatives_radial_py z charges jac pos) /\
  nofault h (axial_coefficients_3d_py charges jac pos z).
Proof. intros. split; [|split]; [apply nf_axial_derivatives_radial|apply nf_current_axial_derivatives_radial|apply nf_axial_coefficients_3d]; assumption. Qed.
Print Assumptions C88_axial.
Theorem C88_geometry : forall h a b c d, array_ok h a -> array_ok h b -> array_ok h c -> array_ok h d ->
  nofault h (normal_2d_py a b) /\ nofault h (normal_3d_py a) /\ (forall alpha beta, nofault h (position_and_jacobian_3d_py alpha beta a)) /\
  nofault h (triangle_areas_py a) /\ nofault h (combine_elec_magnetic_field_py a b c d) /\
  nofault h (fill_jacobian_buffer_radial_py a) /\ nofault h (fill_jacobian_buffer_3d_py a).
Proof.
  intros. split; [|split; [|split; [|split; [|split; [|split]]]]]; [apply nf_normal_2d|apply nf_normal_3d|intros; apply nf_position_and_jacobian_3d|apply nf_triangle_areas|apply nf_combine|apply nf_fill_jacobian_buffer_radial|apply nf_fill_jacobian_buffer_3d]; assumption.
Qed.
Print Assumptions C88_geometry.
Theorem C88_matrix : forall h matrix vertices types values jac pos start end_,
  array_ok h matrix -> array_ok h vertices -> array_ok h types -> array_ok h values -> array_ok h jac -> array_ok h pos ->
  nofault h (fill_matrix_radial_py matrix vertices types values jac pos start end_) /\
  (forall integrate, nofault h (fill_matrix_3d_py integrate matrix vertices types values jac pos start end_)).
Proof. intros. split; [apply nf_fill_matrix_radial|intros; apply nf_fill_matrix_3d]; assumption. Qed.
Print Assumptions C88_matrix.
(** The other calls are safe only if more holds than what the Python functions check: four vertices, vectors of three
    numbers next to each other, at least one position, and a height before the last sample of the table. *)
Theorem C88_elements_partial : forall h,
  (forall vertices charge N, array_ok h vertices -> nd_shape vertices = [N; 3%nat] -> (4 <= N)%nat -> nofault h (charge_radial_py vertices charge)) /\
  (forall alpha a b c d, triple h a -> triple h b -> triple h c -> triple h d -> nofault h (position_and_jacobian_radial_py alpha a b c d)) /\
  (forall alpha v w, four_rows h v -> w = v \/ w = narrow v -> nofault h (higher_order_normal_radial_py alpha w)) /\
  (forall positions p0 normal N, array_ok h positions -> array_ok h p0 -> array_ok h normal -> nd_shape positions = [N; 6%nat] -> (1 <= N)%nat ->
    nofault h (plane_intersection_py positions p0 normal)).
Proof.
  intros h. split; [|split; [|split]].
  - apply nf_charge_radial.
  - intros alpha a b c d Ta Tb Tc Td. unfold nofault. destruct (val_position_and_jacobian_radial h alpha a b c d Ta Tb Tc Td) as [(e & ->)| ->]; discriminate.
  - intros alpha v w F W. unfold nofault. rewrite (val_higher_order_normal_radial h alpha v w F W). discriminate.
  - apply nf_plane_intersection.
Qed.
Print Assumptions C88_elements_partial.
Theorem C88_series_partial : forall h point z coeffs N_z, array_ok h point -> nd_shape point = [3%nat] -> floats h z [N_z] -> (1 <= N_z)%nat ->
  before_last h z N_z (item h point [2%nat]) ->
  (floats h coeffs [(N_z - 1)%nat; 9%nat; 6%nat] -> nofault h (potential_radial_derivs_py point z coeffs) /\ nofault h (field_radial_derivs_py point z coeffs)) /\
  (floats h coeffs [(N_z - 1)%nat; 2%nat; NU_MAX; M_MAX; 4%nat] -> nofault h (potential_3d_derivs_py point z coeffs) /\ nofault h (field_3d_derivs_py point z coeffs)).
Proof.
  intros h p z c N_z Ap Sp Fz N1 B. split; intros Fc; split; [eapply nf_potential_radial_derivs|eapply nf_field_radial_derivs|eapply nf_potential_3d_derivs|eapply nf_field_3d_derivs]; eassumption.
Qed.
Print Assumptions C88_series_partial.
(** Otherwise they read outside the arrays: three vertices, vectors of two numbers or in columns, no position, the last
    sample of the table. *)
Theorem C88_refuted :
  (exists h vertices, floats h vertices [3%nat; 3%nat] /\ forall charge, charge_radial_py vertices charge h = Fault) /\
  (exists h a b c d, floats h a [2%nat] /\ floats h b [2%nat] /\ floats h c [2%nat] /\ floats h d [2%nat] /\ forall alpha, position_and_jacobian_radial_py alpha a b c d h = Fault) /\
  (exists h a b c d, floats h a [3%nat] /\ floats h b [3%nat] /\ floats h c [3%nat] /\ floats h d [3%nat] /\ forall alpha, position_and_jacobian_radial_py alpha a b c d h = Fault) /\
  (exists h vertices, floats h vertices [4%nat; 2%nat] /\ forall alpha, higher_order_normal_radial_py alpha vertices h = Fault) /\
  (exists h x p n, floats h x [0%nat; 6%nat] /\ floats h p [3%nat] /\ floats h n [3%nat] /\ plane_intersection_py x p n h = Fault) /\
  (exists h p z c, floats h p [3%nat] /\ floats h z [2%nat] /\ item h z [0%nat] < item h z [1%nat] /\ item h p [2%nat] = item h z [1%nat] /\ floats h c [1%nat; 9%nat; 6%nat] /\
    potential_radial_derivs_py p z c h = Fault /\ field_radial_derivs_py p z c h = Fault) /\
  (exists h p z c, floats h p [3%nat] /\ floats h z [2%nat] /\ item h z [0%nat] < item h z [1%nat] /\ item h p [2%nat] = item h z [1%nat] /\ floats h c [1%nat; 2%nat; NU_MAX; M_MAX; 4%nat] /\
    potential_3d_derivs_py p z c h = Fault /\ field_3d_derivs_py p z c h = Fault) /\
  (exists h p z c, floats h p [3%nat] /\ floats h z [1%nat] /\ floats h c [0%nat; 9%nat; 6%nat] /\ potential_radial_derivs_py p z c h = Fault).
Proof.
  split; [eexists _, _; split; [apply (charge_radial_faults 0)|intros; apply charge_radial_faults]|].
  split; [exists [zeros_buffer 2; zeros_buffer 2; zeros_buffer 2; zeros_buffer 2], (array_in 0 [2%nat]), (array_in 1 [2%nat]), (array_in 2 [2%nat]), (array_in 3 [2%nat]);
    pose proof (proj1 (position_and_jacobian_radial_faults 0)) as F; repeat (split; [apply F; lia|]); intros; apply position_and_jacobian_radial_faults|].
  split; [exists [zeros_buffer 12], (column 0), (column 1), (column 2), (column 3);
    pose proof (proj1 (position_and_jacobian_radial_columns_fault 0)) as F; repeat (split; [apply F; lia|]); intros; apply position_and_jacobian_radial_columns_fault|].
  split; [eexists _, _; split; [apply (higher_order_normal_radial_faults 0)|intros; apply higher_order_normal_radial_faults]|].
  split; [eexists _, _, _, _; exact plane_intersection_faults|].
  split; [exists (last_sample 54), the_point, the_samples, (array_in 2 [1%nat; 9%nat; 6%nat]); destruct (last_ok 54 [1%nat; 9%nat; 6%nat] eq_refl) as (A & B & C);
    split; [exact A|]; split; [exact B|]; split; [change (0 < 1); lra|]; split; [reflexivity|]; split; [exact C|]; split; [exact potential_radial_derivs_faults|exact field_radial_derivs_faults]|].
  split; [exists (last_sample (size one_row_3d)), the_point, the_samples, (array_in 2 one_row_3d); destruct (last_ok (size one_row_3d) one_row_3d eq_refl) as (A & B & C);
    split; [exact A|]; split; [exact B|]; split; [change (0 < 1); lra|]; split; [reflexivity|]; split; [exact C|]; split; [exact potential_3d_derivs_faults|exact field_3d_derivs_faults]|].
  eexists _, _, _, _. destruct single_ok as (A & B & C). split; [exact A|]. split; [exact B|]. split; [exact C|]. exact single_sample_faults.
Qed.
Print Assumptions C88_refuted.

(** * C89: the values of calls.
    [floats h a s]: an array of doubles of shape [s] in memory [h], with any strides.  [item h a idx]: a\[idx\].
    [returns_value h call v]: the call returns [v] and leaves memory as it was; [returns_array]: it returns a new array with these items. *)
Theorem C89_fields : forall h point charges jac pos N, array_ok h point -> nd_shape point = [3%nat] -> floats h charges [N] ->
  (floats h jac [N; 16%nat] -> floats h pos [N; 16%nat; 2%nat] ->
    let c := line_charges h charges jac pos in let E := FieldModel.field_radial (point_of h point) c in
    returns_value h (potential_radial_py point charges jac pos) (FieldModel.potential_radial (point_of h point) c) /\
    returns_array h (field_radial_py point charges jac pos) [3%nat] [vx E; vy E; vz E]) /\
  (floats h jac [N; 12%nat] -> floats h pos [N; 12%nat; 3%nat] ->
    let c := triangle_charges h charges jac pos in let E := FieldModel.field_3d (point_of h point) c in
    returns_value h (potential_3d_py point charges jac pos) (FieldModel.potential_3d (point_of h point) c) /\
    returns_array h (field_3d_py point charges jac pos) [3%nat] [vx E; vy E; vz E]).
Proof.
  intros h p q j x N Ap Sp Fq. split; intros Fj Fx; split; [eapply ret_potential_radial|eapply ret_field_radial|eapply ret_potential_3d|eapply ret_field_3d]; eassumption.
Qed.
Print Assumptions C89_fields.
Theorem C89_currents : forall h point currents jac pos N, floats h currents [N] -> floats h jac [N; 12%nat] -> floats h pos [N; 12%nat; 3%nat] ->
  (forall i k, (i < N)%nat -> (k < 12)%nat -> item h pos [i; k; 1%nat] = 0) ->
  (floats h point [3%nat] -> let B := FieldModel.current_field (point_of h point) (triangle_charges h currents jac pos) in
    returns_array h (current_field_py point currents jac pos) [3%nat] [vx B; vy B; vz B]) /\
  (forall z, returns_value h (current_potential_axial_py z currents jac pos) (evaluate (fun y => current_potential_axial_radial_ring z (vx y) (vz y)) (triangle_charges h currents jac pos))).
Proof.
  intros h p q j x N Fq Fj Fx P. assert (Pl : in_plane h x).
  { intros i k I. rewrite (proj1 (proj2 Fx)) in I. apply P; cbn [indices] in I; apply in_flat_map in I; destruct I as (i' & Hi & I); apply in_map_iff in I; destruct I as (l & El & I); injection El as -> ->; apply in_arange in Hi; [exact Hi|].
    apply in_flat_map in I. destruct I as (k' & Hk & I). apply in_map_iff in I. destruct I as (l & El & _). injection El as -> _. now apply in_arange in Hk. }
  split; [intros Fp|intros z]; [eapply ret_current_field|eapply ret_current_potential_axial]; eassumption.
Qed.
Print Assumptions C89_currents.
(** Tables: item (i, l) is derivative number l at height i. *)
Theorem C89_axial : forall h z charges jac pos N N_z, floats h z [N_z] -> floats h charges [N] ->
  (floats h jac [N; 16%nat] -> floats h pos [N; 16%nat; 2%nat] ->
    returns_array h (axial_derivatives_radial_py z charges jac pos) [N_z; 9%nat] (rows [N_z; 9%nat] (fun i => axial_row axial_derivatives_radial_ring (item h z [i]) (line_charges h charges jac pos)))) /\
  (floats h jac [N; 12%nat] -> floats h pos [N; 12%nat; 3%nat] ->
    returns_array h (current_axial_derivatives_radial_py z charges jac pos) [N_z; 9%nat] (rows [N_z; 9%nat] (fun i => axial_row current_axial_derivatives_radial_ring (item h z [i]) (triangle_charges h charges jac pos)))).
Proof. intros h z q j x N N_z Fz Fq. split; intros Fj Fx; [eapply ret_axial_derivatives_radial|eapply ret_current_axial_derivatives_radial]; eassumption. Qed.
Print Assumptions C89_axial.
Theorem C89_geometry : forall h,
  (forall t, floats h t [3%nat; 3%nat] -> let n := normal_3d (row_of h t 0) (row_of h t 1) (row_of h t 2) in returns_array h (normal_3d_py t) [3%nat] [vx n; vy n; vz n]) /\
  (forall t N, floats h t [N; 3%nat; 3%nat] ->
    returns_array h (triangle_areas_py t) [N] (map (fun i => triangle_area (vertex_of h t i 0) (vertex_of h t i 1) (vertex_of h t i 2)) (arange N))) /\
  (forall v e m c, floats h v [3%nat] -> floats h e [3%nat] -> floats h m [3%nat] -> floats h c [3%nat] ->
    let F := TracingModel.combine_elec_magnetic_field (point_of h v) (point_of h e) (point_of h m) (point_of h c) in
    returns_array h (combine_elec_magnetic_field_py v e m c) [3%nat] [vx F; vy F; vz F]) /\
  (forall alpha v w, four_rows h v -> w = v \/ w = narrow v -> let c i := V3 (item h v [i; 0%nat]) 0 (item h v [i; 2%nat]) in
    higher_order_normal_radial_py alpha w h = Done (higher_order_normal_radial alpha (c 0%nat) (c 2%nat) (c 3%nat) (c 1%nat)) h).
Proof.
  intros h. split; [apply ret_normal_3d|]. split; [|split; [apply ret_combine|apply val_higher_order_normal_radial]].
  intros t N F. destruct (ret_triangle_areas h t N F) as (a & h' & E & X & A & S & T & C). exists a, h'. split; [exact E|]. split; [exact X|]. split; [exact A|]. split; [exact S|]. split; [exact T|]. rewrite C.
  unfold tabulated. cbn [indices]. rewrite flat_map_concat_map, concat_map, !map_map. cbn [map]. clear. induction (arange N) as [|i l IH]; [reflexivity|]. cbn [map concat app]. now rewrite IH.
Qed.
Print Assumptions C89_geometry.
(** The quadrature points of elements. *)
Theorem C89_buffers : forall h vertices N,
  (floats h vertices [N; 4%nat; 3%nat] -> in_plane h vertices ->
    exists jac pos h', fill_jacobian_buffer_radial_py vertices h = Done (jac, pos) h' /\ extends h h' /\ floats h' jac [N; 16%nat] /\ floats h' pos [N; 16%nat; 2%nat] /\
      forall i, (i < N)%nat -> map (fun k => (item h' jac [i; k], V3 (item h' pos [i; k; 0%nat]) 0 (item h' pos [i; k; 1%nat]))) (arange 16)
        = line_source (vertex_of h vertices i 0) (vertex_of h vertices i 1) (vertex_of h vertices i 2) (vertex_of h vertices i 3)) /\
  (floats h vertices [N; 3%nat; 3%nat] ->
    exists jac pos h', fill_jacobian_buffer_3d_py vertices h = Done (jac, pos) h' /\ extends h h' /\ floats h' jac [N; 12%nat] /\ floats h' pos [N; 12%nat; 3%nat] /\
      forall i, (i < N)%nat -> map (fun k => (item h' jac [i; k], vertex_of h' pos i k)) (arange 12)
        = triangle_source (vertex_of h vertices i 0) (vertex_of h vertices i 1) (vertex_of h vertices i 2)).
Proof. intros h v N. split; [exact (ret_fill_radial h v N)|exact (ret_fill_3d h v N)]. Qed.
Print Assumptions C89_buffers.

(** The matrix: get_matrix of the solver with one thread fills every entry with that of MatrixModel (C06, C17, C18, C29 speak of those).
    [potential_row h types i]: the type of row i is one of 1, 2, 5; [flux_row]: 3 or 6. *)
Theorem C89_matrix : forall h A vertices types values N, bytes h types [N] -> floats h values [N] ->
  (forall i, (i < N)%nat -> potential_row h types i \/ flux_row h types i) ->
  let v := vertex_of h vertices in
  (floats h vertices [N; 4%nat; 3%nat] -> in_plane h vertices -> (2 <= N)%nat ->
    returns_matrix h (assemble_radial vertices types values N) N (fun i j y =>
      (potential_row h types i -> y = radial_potential_entry A false (v i 0%nat) (v i 1%nat) (v i 2%nat) (v i 3%nat) (v j 0%nat) (v j 1%nat) (v j 2%nat) (v j 3%nat)) /\
      (flux_row h types i -> y = radial_flux_entry A (item h values [i]) false (v i 0%nat) (v i 1%nat) (v i 2%nat) (v i 3%nat) (v j 0%nat) (v j 1%nat) (v j 2%nat) (v j 3%nat)))) /\
  (floats h vertices [N; 3%nat; 3%nat] -> (1 <= N)%nat ->
    returns_matrix h (assemble_3d (an_integrate A) vertices types values N) N (fun i j y =>
      (potential_row h types i -> y = potential_entry_3d A (i =? j)%nat (v i 0%nat) (v i 1%nat) (v i 2%nat) (v j 0%nat) (v j 1%nat) (v j 2%nat)) /\
      (flux_row h types i -> y = flux_entry_3d A (item h values [i]) (i =? j)%nat (v i 0%nat) (v i 1%nat) (v i 2%nat) (v j 0%nat) (v j 1%nat) (v j 2%nat)))).
Proof. intros h A L T V N FT FV Ty v. split; intros FL; intros; [now apply assembled_radial|now apply assembled_3d]. Qed.
Print Assumptions C89_matrix.
(** Interpolated fields: [samples h z] and [table h c] are the lists of samples and of coefficients. *)
Theorem C89_series : forall h point z coeffs N_z, array_ok h point -> nd_shape point = [3%nat] -> floats h z [N_z] -> (1 <= N_z)%nat ->
  (floats h coeffs [(N_z - 1)%nat; 9%nat; 6%nat] ->
    (forall v, potential_radial_derivs (point_of h point) (samples h z) (table h coeffs) = Ok v -> returns_value h (potential_radial_derivs_py point z coeffs) v) /\
    (forall v, field_radial_derivs (point_of h point) (samples h z) (table h coeffs) = Ok v -> returns_array h (field_radial_derivs_py point z coeffs) [3%nat] [vx v; vy v; vz v])) /\
  (floats h coeffs [(N_z - 1)%nat; 2%nat; NU_MAX; M_MAX; 4%nat] ->
    forall v, potential_3d_derivs (point_of h point) (samples h z) (table3d h coeffs) = Ok v -> returns_value h (potential_3d_derivs_py point z coeffs) v).
Proof.
  intros h p z c N_z Ap Sp Fz N1. split; [intros Fc; split|intros Fc]; intros v H; [eapply ret_potential_radial_derivs|eapply ret_field_radial_derivs|eapply ret_potential_3d_derivs]; eassumption.
Qed.
Print Assumptions C89_series.

(** Two arrays, possibly in different memories and with different strides, with the same items. *)
Definition same_items (h : heap) (a : ndarray) (h' : heap) (a' : ndarray) : Prop :=
  nd_shape a = nd_shape a' /\ forall idx, In idx (indices (nd_shape a)) -> item h a idx = item h' a' idx.
Lemma in_indices1 n i : (i < n)%nat -> In [i] (indices [n]).
Proof. intros H. cbn [indices]. apply in_flat_map. exists i. split; [now apply in_arange|now left]. Qed.
Lemma in_indices_cons n i s l : (i < n)%nat -> In l (indices s) -> In (i :: l) (indices (n :: s)).
Proof. intros H I. cbn [indices]. apply in_flat_map. exists i. split; [now apply in_arange|now apply in_map]. Qed.
Section Layout.
Variables (h h' : heap) (p q j x p' q' j' x' : ndarray) (N : nat).
Hypothesis (Sp : same_items h p h' p') (Sq : same_items h q h' q') (Sj : same_items h j h' j') (Sx : same_items h x h' x').
Lemma same_point : nd_shape p = [3%nat] -> point_of h p = point_of h' p'.
Proof using Sp. intros S. unfold point_of. destruct Sp as (_ & E). rewrite S in E. rewrite !E by (apply in_indices1; lia). reflexivity. Qed.
Lemma same_lines : nd_shape q = [N] -> nd_shape j = [N; 16%nat] -> nd_shape x = [N; 16%nat; 2%nat] -> line_charges h q j x = line_charges h' q' j' x'.
Proof using Sq Sj Sx.
  intros Hq Hj Hx. unfold line_charges. destruct Sq as (<- & Eq), Sj as (_ & Ej), Sx as (_ & Ex). rewrite Hq in *. rewrite Hj in Ej. rewrite Hx in Ex. cbn [hd]. f_equal. apply map_ext_in. intros i Hi. apply in_arange in Hi.
  rewrite Eq by now apply in_indices1. f_equal. apply map_ext_in. intros k Hk. apply in_arange in Hk. rewrite Ej by (apply in_indices_cons; [assumption|now apply in_indices1]). rewrite !Ex by (apply in_indices_cons; [assumption|apply in_indices_cons; [assumption|apply in_indices1; lia]]). reflexivity.
Qed.
Lemma same_triangles : nd_shape q = [N] -> nd_shape j = [N; 12%nat] -> nd_shape x = [N; 12%nat; 3%nat] -> triangle_charges h q j x = triangle_charges h' q' j' x'.
Proof using Sq Sj Sx.
  intros Hq Hj Hx. unfold triangle_charges. destruct Sq as (<- & Eq), Sj as (_ & Ej), Sx as (_ & Ex). rewrite Hq in *. rewrite Hj in Ej. rewrite Hx in Ex. cbn [hd]. f_equal. apply map_ext_in. intros i Hi. apply in_arange in Hi.
  rewrite Eq by now apply in_indices1. f_equal. apply map_ext_in. intros k Hk. apply in_arange in Hk. rewrite Ej by (apply in_indices_cons; [assumption|now apply in_indices1]). rewrite !Ex by (apply in_indices_cons; [assumption|apply in_indices_cons; [assumption|apply in_indices1; lia]]). reflexivity.
Qed.
End Layout.
(** A potential or field depends only on the items of the arguments, not on strides, offsets or where they are in memory. *)
Theorem C89_layout : forall h h' p q j x p' q' j' x' N,
  same_items h p h' p' -> same_items h q h' q' -> same_items h j h' j' -> same_items h x h' x' ->
  array_ok h p -> array_ok h' p' -> nd_shape p = [3%nat] ->
  (forall a a' s, In (a, a', s) [(q, q', [N]); (j, j', [N; 16%nat]); (x, x', [N; 16%nat; 2%nat])] -> floats h a s /\ floats h' a' s) ->
  (exists v, returns_value h (potential_radial_py p q j x) v /\ returns_value h' (potential_radial_py p' q' j' x') v) /\
  (exists E, returns_array h (field_radial_py p q j x) [3%nat] E /\ returns_array h' (field_radial_py p' q' j' x') [3%nat] E).
Proof.
  intros h h' p q j x p' q' j' x' N Sp Sq Sj Sx Ap Ap' Hp F.
  destruct (F q q' [N]) as (Fq & Fq'); [left; reflexivity|]. destruct (F j j' [N; 16%nat]) as (Fj & Fj'); [right; left; reflexivity|]. destruct (F x x' [N; 16%nat; 2%nat]) as (Fx & Fx'); [right; right; left; reflexivity|].
  assert (Hp' : nd_shape p' = [3%nat]) by (destruct Sp as (<- & _); exact Hp).
  assert (Ep : point_of h p = point_of h' p') by (apply same_point; assumption).
  assert (Ec : line_charges h q j x = line_charges h' q' j' x') by (apply (same_lines _ _ _ _ _ _ _ _ N); try assumption; [apply Fq|apply Fj|apply Fx]).
  split.
  - exists (FieldModel.potential_radial (point_of h p) (line_charges h q j x)). split; [eapply ret_potential_radial; eassumption|]. rewrite Ep, Ec. eapply ret_potential_radial; eassumption.
  - eexists. split; [eapply ret_field_radial; eassumption|]. rewrite Ep, Ec. eapply ret_field_radial; eassumption.
Qed.
Print Assumptions C89_layout.
Theorem C89_layout_3d : forall h h' p q j x p' q' j' x' N,
  same_items h p h' p' -> same_items h q h' q' -> same_items h j h' j' -> same_items h x h' x' ->
  array_ok h p -> array_ok h' p' -> nd_shape p = [3%nat] ->
  (forall a a' s, In (a, a', s) [(q, q', [N]); (j, j', [N; 12%nat]); (x, x', [N; 12%nat; 3%nat])] -> floats h a s /\ floats h' a' s) ->
  (exists v, returns_value h (potential_3d_py p q j x) v /\ returns_value h' (potential_3d_py p' q' j' x') v) /\
  (exists E, returns_array h (field_3d_py p q j x) [3%nat] E /\ returns_array h' (field_3d_py p' q' j' x') [3%nat] E).
Proof.
  intros h h' p q j x p' q' j' x' N Sp Sq Sj Sx Ap Ap' Hp F.
  destruct (F q q' [N]) as (Fq & Fq'); [left; reflexivity|]. destruct (F j j' [N; 12%nat]) as (Fj & Fj'); [right; left; reflexivity|]. destruct (F x x' [N; 12%nat; 3%nat]) as (Fx & Fx'); [right; right; left; reflexivity|].
  assert (Hp' : nd_shape p' = [3%nat]) by (destruct Sp as (<- & _); exact Hp).
  assert (Ep : point_of h p = point_of h' p') by (apply same_point; assumption).
  assert (Ec : triangle_charges h q j x = triangle_charges h' q' j' x') by (apply (same_triangles _ _ _ _ _ _ _ _ N); try assumption; [apply Fq|apply Fj|apply Fx]).
  split.
  - exists (FieldModel.potential_3d (point_of h p) (triangle_charges h q j x)). split; [eapply ret_potential_3d; eassumption|]. rewrite Ep, Ec. eapply ret_potential_3d; eassumption.
  - eexists. split; [eapply ret_field_3d; eassumption|]. rewrite Ep, Ec. eapply ret_field_3d; eassumption.
Qed.
Print Assumptions C89_layout_3d.
(** Elements given by single arrays: the normal of a line in the plane, and the total charge of a line element, which is the
    charge density times the integral of 2 pi r over the element by the quadrature rule. *)
Theorem C89_elements : forall h,
  (forall a b, floats h a [2%nat] -> floats h b [2%nat] ->
    let n := normal_2d (item h a [0%nat]) (item h a [1%nat]) (item h b [0%nat]) (item h b [1%nat]) in returns_array h (normal_2d_py a b) [2%nat] [fst n; snd n]) /\
  (forall v charge N, floats h v [N; 3%nat] -> (4 <= N)%nat ->
    returns_value h (charge_radial_py v charge) (charge * source_sum (fun q => 2 * PI * vx q) (line_source (row_of h v 0) (row_of h v 1) (row_of h v 2) (row_of h v 3)))).
Proof. intros h. split; [apply ret_normal_2d|apply ret_charge_radial]. Qed.
Print Assumptions C89_elements.
(** Coefficients of the expansion around the axis: item (i, 0, nu, m) belongs to the cosine, item (i, 1, nu, m) to the sine. *)
Theorem C89_coefficients_3d : forall h charges jac pos z N N_z, floats h charges [N] -> floats h jac [N; 12%nat] -> floats h pos [N; 12%nat; 3%nat] -> floats h z [N_z] ->
  exists a h', axial_coefficients_3d_py charges jac pos z h = Done a h' /\ extends h h' /\ floats h' a [N_z; 2%nat; NU_MAX; M_MAX] /\
    forall i nu m, (i < N_z)%nat -> (nu < NU_MAX)%nat -> (m < M_MAX)%nat ->
      item h' a [i; 0%nat; nu; m] = axial_coefficient false (item h z [i]) (triangle_charges h charges jac pos) nu m /\
      item h' a [i; 1%nat; nu; m] = axial_coefficient true (item h z [i]) (triangle_charges h charges jac pos) nu m.
Proof.
  intros h q j x z N N_z Fq Fj Fx Fz. destruct (ret_axial_coefficients_3d h q j x z N N_z Fq Fj Fx Fz) as (a & h' & E & X & I).
  exists a, h'. split; [exact E|]. split; [exact X|]. split; [eapply is_array_floats; exact I|]. intros i nu m Hi Hnu Hm.
  assert (In4 : forall s, (s < 2)%nat -> In [i; s; nu; m] (indices [N_z; 2%nat; NU_MAX; M_MAX])) by (intros; do 3 (apply in_indices_cons; [assumption|]); now apply in_indices1).
  split; [rewrite (is_array_item _ _ _ _ _ I (In4 0%nat ltac:(lia)))|rewrite (is_array_item _ _ _ _ _ I (In4 1%nat ltac:(lia)))]; reflexivity.
Qed.
Print Assumptions C89_coefficients_3d.
(** The point where a trace crosses a plane: the samples of the trace are the rows of an array.  With one sample there is no
    crossing; the C code cannot tell, its assertion is compiled away. *)
Theorem C89_plane : forall h positions p0 normal N, floats h positions [N; 6%nat] -> floats h p0 [3%nat] -> floats h normal [3%nat] ->
  ((2 <= N)%nat ->
    match TracingModel.plane_intersection (samples_of h positions) (point_of h p0) (point_of h normal) with
    | Ok s => returns_array h (plane_intersection_py positions p0 normal) [6%nat] (six s)
    | Err e => plane_intersection_py positions p0 normal h = Raises e
    end) /\
  (N = 1%nat -> plane_intersection_py positions p0 normal h = Raises ValueError).
Proof.
  intros h x p n N Fx Fp Fn. split.
  - intros HN. pose proof (val_plane_intersection h x p n N Fx Fp Fn ltac:(lia)) as V. unfold TracingModel.plane_intersection. rewrite (samples_rev h x N) by apply Fx.
    destruct N as [|[|N]]; try lia. replace (S (S N) - 1)%nat with (S N) in V by lia. revert V. rewrite rev_arange. destruct (TracingModel.plane_loop _ _ _ _); intros V; exact V.
  - intros ->. exact (val_plane_intersection h x p n 1 Fx Fp Fn (le_n _)).
Qed.
Print Assumptions C89_plane.

(** But the layout of a result argument does matter: a matrix that is not contiguous is copied, and nothing is written to it. *)
Theorem C89_strided_matrix_refuted : forall h matrix N vertices types values jac pos start end_,
  floats h matrix [N; N] -> is_contiguous matrix = false -> bytes h types [N] -> floats h values [N] ->
  (forall i, (start <= i <= end_)%nat -> potential_row h types i \/ flux_row h types i) ->
  (floats h vertices [N; 4%nat; 3%nat] -> in_plane h vertices -> floats h jac [N; 16%nat] -> floats h pos [N; 16%nat; 2%nat] -> (start < end_ < N)%nat ->
    exists h', fill_matrix_radial_py matrix vertices types values jac pos start end_ h = Done tt h' /\ forall i j, item h' matrix [i; j] = item h matrix [i; j]) /\
  (floats h vertices [N; 3%nat; 3%nat] -> floats h jac [N; 12%nat] -> floats h pos [N; 12%nat; 3%nat] -> (start <= end_ < N)%nat ->
    forall integrate, exists h', fill_matrix_3d_py integrate matrix vertices types values jac pos start end_ h = Done tt h' /\ forall i j, item h' matrix [i; j] = item h matrix [i; j]).
Proof.
  intros h m N L T V J X s e Fm St FT FV Ty.
  assert (K : forall h', (forall b, (b < length h)%nat -> nth_error h' b = nth_error h b) -> forall i j, item h' m [i; j] = item h m [i; j]).
  { intros h' K i j. unfold item. rewrite K; [reflexivity|]. destruct Fm as ((_ & b & Hb & _) & _). apply nth_error_Some. congruence. }
  split.
  - intros FL PL FJ FX Hse. destruct (fill_matrix_radial_lost h m N Fm St L T V J X s e) as (h' & E & W); try assumption. exists h'. split; [exact E|now apply K].
  - intros FL FJ FX Hse int. destruct (fill_matrix_3d_lost h m N Fm St int L T V J X s e) as (h' & E & W); try assumption. exists h'. split; [exact E|now apply K].
Qed.
Print Assumptions C89_strided_matrix_refuted.
(** The function for the field of the three-dimensional expansion returns None. *)
Theorem C89_none_refuted : forall h point z coeffs N_z v, array_ok h point -> nd_shape point = [3%nat] -> floats h z [N_z] -> (1 <= N_z)%nat ->
  floats h coeffs [(N_z - 1)%nat; 2%nat; NU_MAX; M_MAX; 4%nat] ->
  field_3d_derivs (point_of h point) (samples h z) (table3d h coeffs) = Ok v -> returns_value h (field_3d_derivs_py point z coeffs) None.
Proof. intros. eapply ret_field_3d_derivs; eassumption. Qed.
Print Assumptions C89_none_refuted.
(** current_field does not convert its point: integers raise an exception, where field_radial and field_3d convert. *)
Theorem C89_integer_point_refuted : forall h point currents jac pos N,
  array_ok h point -> nd_shape point = [3%nat] -> nd_dtype point = Int64 -> floats h currents [N] -> floats h jac [N; 12%nat] -> floats h pos [N; 12%nat; 3%nat] -> in_plane h pos ->
  current_field_py point currents jac pos h = Raises TypeError.
Proof.
  intros h p q j x N Ap Sp Tp (Aq & Sq & Tq) (Aj & Sj & Tj) (Ax & Sx & Tx) P.
  assert (Mz : middle_zero x h = Done true h).
  { unfold middle_zero. rewrite Sx. cbn [Nat.ltb Nat.leb]. f_equal. apply forallb_forall. intros idx I. destruct idx as [|u [|v [|w [|z idx]]]]; try reflexivity. destruct (Nat.eqb_spec w 1) as [->|]; [|reflexivity]. cbn [negb orb].
    destruct (Req_EM_T (item h x [u; v; 1%nat]) 0) as [|F]; [reflexivity|]. destruct F. apply P. now rewrite Sx. }
  unfold current_field_py, has_shape, py_len. rewrite Sp, Sq, Sj, Sx. cbn [shape_eqb Nat.eqb]. change (N_TRIANGLE_QUAD) with 12%nat. cbn [Nat.eqb andb].
  unfold bnd, ret. cbn [assertM]. unfold ret. rewrite Nat.eqb_refl. cbn [andb assertM]. unfold ret. rewrite Mz. cbn beta iota. cbv beta iota delta [assertM ret np_zeros new_array pass bnd ensure_contiguous_aligned v3 accepts has_shape]. rewrite Sp. destruct (is_contiguous p); cbn [nd_shape nd_dtype shape_eqb Nat.eqb andb]; rewrite Tp, ?Sp; reflexivity.
Qed.
Print Assumptions C89_integer_point_refuted.
(** Filling a single row of the matrix of a radial geometry raises an exception; in three dimensions it does not. *)
Theorem C89_one_row_refuted : forall h matrix vertices types values jac pos i h',
  fill_matrix_radial_py matrix vertices types values jac pos i i h <> Done tt h'.
Proof.
  intros h m L T V J X i h' H. unfold fill_matrix_radial_py in H. rewrite (Nat.ltb_irrefl i) in H.
  repeat match type of H with
  | bnd (assertM (_ && false)) _ _ = _ => rewrite andb_false_r in H; discriminate H
  | bnd ?m ?f ?hh = _ => unfold bnd at 1 in H; destruct (m hh) as [? ?|?| |]; [|discriminate H|discriminate H|discriminate H]
  end.
Qed.
Print Assumptions C89_one_row_refuted.

(** Concrete cases: a point with stride 2, jac and pos in Fortran order, one line element; two triangles with a matrix in Fortran order. *)
Definition sample_heap : heap :=
  [mkbuffer Float64 [1; 7; 2; 7; 3]; mkbuffer Float64 [5]; mkbuffer Float64 (repeat 1 16); mkbuffer Float64 (repeat 2 16 ++ repeat 4 16);
   mkbuffer Float64 [0;0;0; 1;0;0; 0;1;0; 0;0;1; 1;0;1; 0;1;1]; mkbuffer UInt8 [1; 3]; mkbuffer Float64 [5; 2]; zeros_buffer 24; zeros_buffer 72; zeros_buffer 4].
Definition sample_point : ndarray := mkarray (mkptr 0 0) [3%nat] [2%Z] Float64.
Definition sample_charges : ndarray := mkarray (mkptr 1 0) [1%nat] [1%Z] Float64.
Definition sample_jac : ndarray := mkarray (mkptr 2 0) [1%nat; 16%nat] [1%Z; 1%Z] Float64.
Definition sample_pos : ndarray := mkarray (mkptr 3 0) [1%nat; 16%nat; 2%nat] [1%Z; 1%Z; 16%Z] Float64.
Definition sample_vertices : ndarray := array_in 4 [2%nat; 3%nat; 3%nat].
Definition sample_types : ndarray := mkarray (mkptr 5 0) [2%nat] [1%Z] UInt8.
Definition sample_values : ndarray := array_in 6 [2%nat].
Definition fortran_matrix : ndarray := mkarray (mkptr 9 0) [2%nat; 2%nat] [1%Z; 2%Z] Float64.
Ltac concrete_array := split; [split; [reflexivity|]; eexists; split; [reflexivity|]; split; [reflexivity|]; intros idx I; cbn in I; repeat (destruct I as [<-|I]; [cbn; lia|]); destruct I|split; reflexivity].
Lemma sample_ok : floats sample_heap sample_point [3%nat] /\ floats sample_heap sample_charges [1%nat] /\ floats sample_heap sample_jac [1%nat; 16%nat] /\ floats sample_heap sample_pos [1%nat; 16%nat; 2%nat].
Proof. split; [concrete_array|]. split; [concrete_array|]. split; concrete_array. Qed.
Lemma sample_triangles : floats sample_heap sample_vertices [2%nat; 3%nat; 3%nat] /\ bytes sample_heap sample_types [2%nat] /\ floats sample_heap sample_values [2%nat] /\
  potential_row sample_heap sample_types 0 /\ flux_row sample_heap sample_types 1.
Proof. split; [apply array_in_ok; eexists; split; reflexivity|]. split; [concrete_array|]. split; [apply array_in_ok; eexists; split; reflexivity|]. split; [left; reflexivity|left; reflexivity]. Qed.
Example C88_nonvacuous : nofault sample_heap (potential_radial_py sample_point sample_charges sample_jac sample_pos) /\
  is_contiguous sample_point = false /\ is_contiguous sample_pos = false.
Proof. destruct sample_ok as (A & B & C & D). split; [apply C88_fields; [apply A|apply B|apply C|apply D]|split; reflexivity]. Qed.
Example C89_nonvacuous :
  returns_value sample_heap (potential_radial_py sample_point sample_charges sample_jac sample_pos)
    (FieldModel.potential_radial (V3 1 2 3) (mkcharges LINE_RULE [(5, repeat (1, V3 2 0 4) 16)])) /\
  (forall A, let v := vertex_of sample_heap sample_vertices in
    returns_matrix sample_heap (assemble_3d (an_integrate A) sample_vertices sample_types sample_values 2) 2 (fun i j y =>
      (i = 0%nat -> y = potential_entry_3d A (i =? j)%nat (V3 0 0 0) (V3 1 0 0) (V3 0 1 0) (v j 0%nat) (v j 1%nat) (v j 2%nat)) /\
      (i = 1%nat -> y = flux_entry_3d A 2 (i =? j)%nat (V3 0 0 1) (V3 1 0 1) (V3 0 1 1) (v j 0%nat) (v j 1%nat) (v j 2%nat)))) /\
  (forall integrate, exists h', fill_matrix_3d_py integrate fortran_matrix sample_vertices sample_types sample_values (array_in 7 [2%nat; 12%nat]) (array_in 8 [2%nat; 12%nat; 3%nat]) 0 1 sample_heap = Done tt h' /\
    item h' fortran_matrix [0%nat; 0%nat] = 0 /\ is_contiguous fortran_matrix = false).
Proof.
  destruct sample_ok as (A & B & C & D). destruct sample_triangles as (E & F & G & P0 & P1).
  assert (Ty : forall i, (i < 2)%nat -> potential_row sample_heap sample_types i \/ flux_row sample_heap sample_types i) by (intros [|[|i]] Hi; [left; exact P0|right; exact P1|lia]).
  split; [|split].
  - exact (proj1 (proj1 (C89_fields sample_heap sample_point sample_charges sample_jac sample_pos 1 (proj1 A) (proj1 (proj2 A)) B) C D)).
  - intros an v. destruct (proj2 (C89_matrix sample_heap an sample_vertices sample_types sample_values 2 F G Ty) E (le_S _ _ (le_n _))) as (a & h' & R1 & R2 & R3 & R4).
    exists a, h'. split; [exact R1|]. split; [exact R2|]. split; [exact R3|]. intros i j Hi Hj. destruct (R4 i j Hi Hj) as (U & W). split; intros ->; [exact (U P0)|exact (W P1)].
  - intros int. assert (Fm : floats sample_heap fortran_matrix [2%nat; 2%nat]) by concrete_array.
    destruct (proj2 (C89_strided_matrix_refuted sample_heap fortran_matrix 2 sample_vertices sample_types sample_values (array_in 7 [2%nat; 12%nat]) (array_in 8 [2%nat; 12%nat; 3%nat]) 0 1 Fm eq_refl F G ltac:(intros i Hi; apply Ty; lia)) E) with (integrate := int) as (h' & R1 & R2).
    + apply array_in_ok. eexists. split; reflexivity.
    + apply array_in_ok. eexists. split; reflexivity.
    + lia.
    + exists h'. split; [exact R1|]. split; [rewrite R2; reflexivity|reflexivity].
Qed.

(** Three samples in Fortran order; the middle one is before the plane z = 2, the last after it. *)
Definition trace_heap : heap := [mkbuffer Float64 [0;0;0; 0;0;0; 0;1;4; 7;7;7; 8;8;8; 9;9;10]; mkbuffer Float64 [0; 0; 2]; mkbuffer Float64 [0; 0; 1]].
Definition trace_array : ndarray := mkarray (mkptr 0 0) [3%nat; 6%nat] [1%Z; 3%Z] Float64.
Example C89_plane_nonvacuous :
  floats trace_heap trace_array [3%nat; 6%nat] /\ is_contiguous trace_array = false /\
  returns_array trace_heap (plane_intersection_py trace_array (array_in 1 [3%nat]) (array_in 2 [3%nat])) [6%nat] [0; 0; 2; 7; 8; 28 / 3].
Proof.
  assert (F : floats trace_heap trace_array [3%nat; 6%nat]) by concrete_array. split; [exact F|]. split; [reflexivity|].
  assert (F1 : floats trace_heap (array_in 1 [3%nat]) [3%nat]) by (apply array_in_ok; eexists; split; reflexivity).
  assert (F2 : floats trace_heap (array_in 2 [3%nat]) [3%nat]) by (apply array_in_ok; eexists; split; reflexivity).
  pose proof (proj1 (C89_plane trace_heap trace_array _ _ 3 F F1 F2) ltac:(lia)) as P.
  assert (D : TracingModel.plane_intersection (samples_of trace_heap trace_array) (point_of trace_heap (array_in 1 [3%nat])) (point_of trace_heap (array_in 2 [3%nat])) = Ok (TracingModel.mkstate (V3 0 0 2) (V3 7 8 (28 / 3)))).
  { change (samples_of trace_heap trace_array) with [TracingModel.mkstate (V3 0 0 0) (V3 7 8 9); TracingModel.mkstate (V3 0 0 1) (V3 7 8 9); TracingModel.mkstate (V3 0 0 4) (V3 7 8 10)].
    change (point_of trace_heap (array_in 1 [3%nat])) with (V3 0 0 2). change (point_of trace_heap (array_in 2 [3%nat])) with (V3 0 0 1).
    unfold TracingModel.plane_intersection. cbn [rev app TracingModel.plane_loop TracingModel.s_pos].
    assert (K : forall z, TracingModel.kappa (V3 0 0 2) (V3 0 0 1) (V3 0 0 z) = 2 - z).
    { intros z. unfold TracingModel.kappa, norm. cbn [vx vy vz]. replace (_ + _ + _) with 1 by ring. rewrite sqrt_1. field. }
    rewrite !K. unfold TracingModel.ltb. destruct (Rlt_dec 0 (2 - 4)); [lra|]. destruct (Rlt_dec 0 (2 - 1)); [|lra]. cbn [Bool.eqb].
    unfold TracingModel.sadd, TracingModel.sscale, vadd, vscale. cbn [TracingModel.s_pos TracingModel.s_vel vx vy vz]. f_equal. f_equal; f_equal; field. }
  rewrite D in P. exact P.
Qed.
