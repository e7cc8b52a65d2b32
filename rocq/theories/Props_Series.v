(** Property theorems about axial derivatives and the radial series: C42, C43, C44, C45. *)
From Coq Require Import Reals ZArith Lra Lia.
From Coquelicot Require Import Coquelicot.
From Verif Require Import Base BaseFacts Vec GeomModel OutwardFacts FieldModel FieldFacts SeriesModel SeriesFacts InterpFacts.
Local Open Scope R_scope.

(** ** C42 Axial derivatives *)
(** A ring of radius r with unit charge per length has potential r / (2 sqrt(dz^2 + r^2)) on the axis, and a
    ring with unit current has scalar potential - dz / (2 sqrt(dz^2 + r^2)); entry n is the n-th derivative. *)
Theorem C42_ring z0 r z n : r <> 0 -> (n < 9)%nat ->
  is_derive_n (fun s => r / (2 * sqrt ((s - z) ^ 2 + r ^ 2))) n z0 (nth n (axial_derivatives_radial_ring z0 r z) 0) /\
  is_derive_n (fun s => - (s - z) / (2 * sqrt ((s - z) ^ 2 + r ^ 2))) n z0 (nth n (current_axial_derivatives_radial_ring z0 r z) 0).
Proof.
  intros Hr Hn. split.
  - rewrite ring_nth by exact Hn. apply (chain_is_derive_n (fun n s => r / 2 * ring_D r n (s - z))); [apply ring_chain; exact Hr|]. intros s. apply ring_0. exact Hr.
  - rewrite current_nth by exact Hn. apply (chain_is_derive_n (fun n s => current_D r n (s - z))); [apply current_chain; exact Hr|]. intros s. apply current_0.
Qed.
Print Assumptions C42_ring.

(** The tables of a whole field: one row of nine entries per z, entry n the n-th derivative of the axial
    potential, which for the magnetostatic case is the sum of those of the magnetisation and the currents. *)
Definition axial_electric_potential (f : bem) (s : R) : R :=
  evaluate (fun q => vx q / (2 * sqrt ((s - vz q) ^ 2 + vx q ^ 2))) (b_elec f).
Definition axial_magnetic_potential (f : bem) (s : R) : R :=
  evaluate (fun q => vx q / (2 * sqrt ((s - vz q) ^ 2 + vx q ^ 2))) (b_mag f) +
  evaluate (fun q => - (s - vz q) / (2 * sqrt ((s - vz q) ^ 2 + vx q ^ 2))) (b_cur f).
Theorem C42_tables f zs i z n : off_axis (b_elec f) -> off_axis (b_mag f) -> off_axis (b_cur f) ->
  nth_error zs i = Some z -> (n < 9)%nat ->
  (exists row, nth_error (electrostatic_axial_derivatives f zs) i = Some row /\ length row = 9%nat /\
     is_derive_n (axial_electric_potential f) n z (nth n row 0)) /\
  (exists row, nth_error (magnetostatic_axial_derivatives f zs) i = Some row /\ length row = 9%nat /\
     is_derive_n (axial_magnetic_potential f) n z (nth n row 0)).
Proof.
  intros He Hm Hc Hi Hn. split.
  - exists (axial_row axial_derivatives_radial_ring z (b_elec f)). split; [unfold electrostatic_axial_derivatives; rewrite nth_error_map, Hi; reflexivity|].
    split; [reflexivity|]. apply axial_row_derivative; assumption.
  - eexists. split; [unfold magnetostatic_axial_derivatives; rewrite nth_error_map, Hi; reflexivity|]. split; [reflexivity|].
    assert (E : nth n (map2 Rplus (axial_row axial_derivatives_radial_ring z (b_mag f)) (axial_row current_axial_derivatives_radial_ring z (b_cur f))) 0 =
                nth n (axial_row axial_derivatives_radial_ring z (b_mag f)) 0 + nth n (axial_row current_axial_derivatives_radial_ring z (b_cur f)) 0).
    { do 9 (destruct n as [|n]; [reflexivity|]). lia. }
    rewrite E, !axial_row_nth by exact Hn.
    rewrite (evaluate_ext _ (fun q => vx q / 2 * ring_D (vx q) n (z - vz q)) (b_mag f)) by (intros; apply ring_nth; exact Hn).
    rewrite (evaluate_ext _ (fun q => current_D (vx q) n (z - vz q)) (b_cur f)) by (intros; apply current_nth; exact Hn).
    apply (chain_is_derive_n (fun n s => evaluate (fun q => vx q / 2 * ring_D (vx q) n (s - vz q)) (b_mag f) + evaluate (fun q => current_D (vx q) n (s - vz q)) (b_cur f))).
    + intros k x. apply (is_derive_plus (fun s => evaluate (fun q => vx q / 2 * ring_D (vx q) k (s - vz q)) (b_mag f)) (fun s => evaluate (fun q => current_D (vx q) k (s - vz q)) (b_cur f)) x).
      * apply (evaluate_chain (fun n s q => vx q / 2 * ring_D (vx q) n (s - vz q))); [|exact Hm]. intros q Hq. apply (ring_chain (vx q) (vz q) Hq).
      * apply (evaluate_chain (fun n s q => current_D (vx q) n (s - vz q))); [|exact Hc]. intros q Hq. apply (current_chain (vx q) (vz q) Hq).
    + intros s. unfold axial_magnetic_potential. f_equal; apply evaluate_ext; intros x Hx jp Hjp; [apply ring_0; apply (Hm x Hx jp Hjp)|apply current_0].
Qed.
Print Assumptions C42_tables.
Example C42_nonvacuous : off_axis (mkcharges LINE_RULE [(3, [(1, V3 1 0 0); (2, V3 2 0 5)])]) /\
  nth 2 (axial_derivatives_radial_ring 0 1 0) 0 = - 1 / 2.
Proof.
  split.
  - intros x [<-|[]] jp [<-|[<-|[]]]; cbn; lra.
  - unfold axial_derivatives_radial_ring, norm_2d. replace ((0 - 0) * (0 - 0) + 1 * 1) with 1 by ring. rewrite sqrt_1. cbn. field.
Qed.

(** ** C44 Rows that exist *)
(** Samples equally spaced, one row of coefficients per interval (interpolation.py, backend/__init__.py:409).
    Inside the range, up to but excluding the last sample, and outside the range, potential and field are
    computed from rows that exist. *)
Theorem C44_rows_exist_partial z0 h N coeff p : 0 < h -> (2 <= N)%nat -> length coeff = (N - 1)%nat -> vz p <> z0 + INR (N - 1) * h ->
  (exists v, potential_radial_derivs p (samples z0 h N) coeff = Ok v) /\ (exists E, field_radial_derivs p (samples z0 h N) coeff = Ok E).
Proof.
  intros Hh HN Hl Hz. unfold potential_radial_derivs, field_radial_derivs.
  destruct (Rlt_le_dec (vz p) z0) as [L|L]; [rewrite derivs_outside by (assumption || lra); cbn; eauto|].
  destruct (Rlt_le_dec (z0 + INR (N - 1) * h) (vz p)) as [L2|L2]; [rewrite derivs_outside by (assumption || lra); cbn; eauto|].
  destruct (cell_exists z0 h N (vz p) Hh HN) as (j & Hj & Hc); [lra|].
  destruct (derivs_inside z0 h N coeff (vz p) j Hh Hj Hc Hl) as (row & _ & E). rewrite E. cbn. eauto.
Qed.
Print Assumptions C44_rows_exist_partial.
(** At the last tabulated z, which is inside the range, a row after the end of the table is read. *)
Theorem C44_last_sample_refuted z0 h N coeff x y : 0 < h -> (2 <= N)%nat -> length coeff = (N - 1)%nat ->
  potential_radial_derivs (V3 x y (z0 + INR (N - 1) * h)) (samples z0 h N) coeff = Err IndexError /\
  field_radial_derivs (V3 x y (z0 + INR (N - 1) * h)) (samples z0 h N) coeff = Err IndexError.
Proof.
  intros Hh HN Hl. unfold potential_radial_derivs, field_radial_derivs. cbn [vz]. rewrite derivs_last by assumption. split; reflexivity.
Qed.
Print Assumptions C44_last_sample_refuted.
Example C44_nonvacuous : samples 0 1 3 = [0 + 0 * 1; 0 + 1 * 1; 0 + (1 + 1) * 1] /\
  potential_radial_derivs (V3 0 0 2) (samples 0 1 3) [fun _ => poly6_zero; fun _ => poly6_zero] = Err IndexError.
Proof.
  split; [reflexivity|]. replace 2 with (0 + INR (3 - 1) * 1) by (simpl; ring). apply C44_last_sample_refuted; [lra|lia|reflexivity].
Qed.

(** ** C43 The radial series *)
(** Everywhere except at the last sample (C44): outside the range everything vanishes; inside, on the axis the
    potential is the interpolated potential and the field is minus the interpolated derivative along the
    axis; the x and y components are minus the derivatives of the potential; rotation about the axis leaves
    the potential alone and rotates the field. *)
Theorem C43_outside z0 h N coeff p : (2 <= N)%nat -> vz p < z0 \/ z0 + INR (N - 1) * h < vz p ->
  potential_radial_derivs p (samples z0 h N) coeff = Ok 0 /\ field_radial_derivs p (samples z0 h N) coeff = Ok vzero.
Proof. intros HN H. unfold potential_radial_derivs, field_radial_derivs. rewrite derivs_outside by assumption. split; reflexivity. Qed.
Print Assumptions C43_outside.
Theorem C43_inside_partial z0 h N coeff z : 0 < h -> (2 <= N)%nat -> length coeff = (N - 1)%nat -> z0 <= z < z0 + INR (N - 1) * h ->
  exists phi E, (forall x y, potential_radial_derivs (V3 x y z) (samples z0 h N) coeff = Ok (phi x y) /\
                             field_radial_derivs (V3 x y z) (samples z0 h N) coeff = Ok (E x y)) /\
    (forall x y, is_derive (fun t => phi t y) x (- vx (E x y)) /\ is_derive (fun t => phi x t) y (- vy (E x y))) /\
    (forall c s x y, c ^ 2 + s ^ 2 = 1 ->
       phi (c * x - s * y) (s * x + c * y) = phi x y /\
       E (c * x - s * y) (s * x + c * y) = V3 (c * vx (E x y) - s * vy (E x y)) (s * vx (E x y) + c * vy (E x y)) (vz (E x y))) /\
    exists j row, (S j < N)%nat /\ z0 + INR j * h <= z < z0 + (INR j + 1) * h /\ nth_error coeff j = Some row /\
      phi 0 0 = poly_at (row 0%nat) (z - (z0 + INR j * h)) /\ E 0 0 = V3 0 0 (- poly_at (row 1%nat) (z - (z0 + INR j * h))).
Proof.
  intros Hh HN Hl Hz. destruct (cell_exists z0 h N z Hh HN Hz) as (j & Hj & Hc).
  destruct (derivs_inside z0 h N coeff z j Hh Hj Hc Hl) as (row & Hr & E).
  set (d := fun i => poly_at (row i) (z - (z0 + INR j * h))) in E.
  exists (fun x y => potential_series d (norm_2d x y)), (fun x y => field_series d (V3 x y z)).
  split; [|split; [|split]].
  - intros x y. unfold potential_radial_derivs, field_radial_derivs. cbn [vz vx vy]. rewrite E. split; reflexivity.
  - intros x y. exact (series_gradient d (V3 x y z)).
  - intros c s x y H. split; [rewrite rotate_norm by exact H; reflexivity|].
    unfold field_series. cbn [vx vy vz]. rewrite rotate_norm by exact H. f_equal; ring.
  - exists j, row. repeat split; auto; try apply Hc; [apply potential_series_axis|apply field_series_axis].
Qed.
Print Assumptions C43_inside_partial.

(** ** C45 Quintic interpolation *)
(** For each of the derivatives 0 to 6 and every interval: value, first and second derivative at both ends
    are those of the table ([derivs i j] is derivative i at sample j). *)
Theorem C45_end_values z0 h N derivs cubic i j : h <> 0 -> (S j < N)%nat -> (i <= 6)%nat ->
  exists row, nth_error (quintic_spline_coefficients (samples z0 h N) derivs cubic) j = Some row /\
    let P := poly_at (row i) in
    P 0 = derivs i j /\ is_derive P 0 (derivs (i + 1)%nat j) /\ is_derive_n P 2 0 (derivs (i + 2)%nat j) /\
    P h = derivs i (j + 1)%nat /\ is_derive P h (derivs (i + 1)%nat (j + 1)%nat) /\ is_derive_n P 2 h (derivs (i + 2)%nat (j + 1)%nat).
Proof.
  intros Hh Hj Hi. exists (quintic_row (samples z0 h N) derivs cubic j). split; [apply quintic_table_get; exact Hj|]. cbv zeta.
  destruct (quintic_row_ends z0 h N derivs cubic i j Hh Hj Hi) as (A & B & C & D & E & F).
  replace (i + 1)%nat with (S i) by lia. replace (i + 2)%nat with (S (S i)) by lia. replace (j + 1)%nat with (S j) by lia.
  set (c := quintic_row (samples z0 h N) derivs cubic j i) in *.
  assert (D2 : forall x : R, is_derive_n (poly_at c) 2 x (poly_at'' c x)).
  { intros x. cbn. apply (is_derive_ext (poly_at' c)); [|apply poly_derive']. intros t. symmetry. apply is_derive_unique. apply poly_derive. }
  split; [exact A|]. split; [rewrite <- B; apply poly_derive|]. split; [rewrite <- C; apply D2|].
  split; [exact D|]. split; [rewrite <- E; apply poly_derive|]. rewrite <- F. apply D2.
Qed.
Print Assumptions C45_end_values.
(** The two highest derivatives are those of the cubic spline: on every interval the polynomial whose four coefficients it has,
    highest power first. *)
Theorem C45_spline z0 h N derivs cubic i j : (S j < N)%nat -> (7 <= i)%nat ->
  exists (row : coeff_row) (a b c d : R), nth_error (quintic_spline_coefficients (samples z0 h N) derivs cubic) j = Some row /\ cubic i j = (a, b, c, d) /\
    forall x, poly_at (row i) x = a * x ^ 3 + b * x ^ 2 + c * x + d.
Proof.
  intros Hj Hi. destruct (cubic i j) as [[[a b] c] d] eqn:E. exists (quintic_row (samples z0 h N) derivs cubic j), a, b, c, d. split; [apply quintic_table_get; exact Hj|]. split; [reflexivity|].
  intros x. unfold quintic_row. destruct (i + 2 <? 9)%nat eqn:L; [apply Nat.ltb_lt in L; lia|]. rewrite E. unfold poly_at. ring.
Qed.
Print Assumptions C45_spline.
(** So the interpolated axial potential, and every interpolated derivative up to the sixth, is twice
    continuously differentiable over the whole range, and agrees with the table at the samples. *)
Theorem C45_smooth z0 h N derivs cubic i : 0 < h -> (2 <= N)%nat -> (i <= 6)%nat ->
  exists F F1 F2 : R -> R,
    (forall z, z0 <= z < z0 + INR (N - 1) * h -> exists d, series_derivs (samples z0 h N) (quintic_spline_coefficients (samples z0 h N) derivs cubic) z = Ok (Some d) /\ d i = F z) /\
    (i = 0%nat -> forall z, z0 <= z < z0 + INR (N - 1) * h ->
       potential_radial_derivs (V3 0 0 z) (samples z0 h N) (quintic_spline_coefficients (samples z0 h N) derivs cubic) = Ok (F z)) /\
    (forall z, z0 < z < z0 + INR (N - 1) * h -> is_derive F z (F1 z) /\ is_derive F1 z (F2 z) /\ continuous F2 z) /\
    (forall j, (S j < N)%nat -> F (z0 + INR j * h) = derivs i j /\ F1 (z0 + INR j * h) = derivs (i + 1)%nat j /\ F2 (z0 + INR j * h) = derivs (i + 2)%nat j).
Proof.
  intros Hh HN Hi. assert (Nh : h <> 0) by lra. set (c := fun j => quintic_row (samples z0 h N) derivs cubic j i).
  assert (Ends : forall j, (S j < N)%nat -> poly_at (c j) 0 = derivs i j /\ poly_at' (c j) 0 = derivs (S i) j /\ poly_at'' (c j) 0 = derivs (S (S i)) j /\
    poly_at (c j) h = derivs i (S j) /\ poly_at' (c j) h = derivs (S i) (S j) /\ poly_at'' (c j) h = derivs (S (S i)) (S j))
    by (intros j Hj; exact (quintic_row_ends z0 h N derivs cubic i j Nh Hj Hi)).
  exists (cellwise z0 h (fun j => poly_at (c j))), (cellwise z0 h (fun j => poly_at' (c j))), (cellwise z0 h (fun j => poly_at'' (c j))).
  assert (In1 : forall z, z0 <= z < z0 + INR (N - 1) * h -> exists d, series_derivs (samples z0 h N) (quintic_spline_coefficients (samples z0 h N) derivs cubic) z = Ok (Some d) /\
            d i = cellwise z0 h (fun j => poly_at (c j)) z).
  { intros z Hz. destruct (cell_exists z0 h N z Hh HN Hz) as (j & Hj & Hc).
    destruct (derivs_inside z0 h N _ z j Hh Hj Hc (quintic_table_length z0 h N derivs cubic)) as (row & Hr & E). rewrite quintic_table_get in Hr by exact Hj. injection Hr as <-.
    eexists. split; [exact E|]. cbv beta. rewrite (cellwise_in z0 h _ z j Hh Hc). reflexivity. }
  split; [exact In1|]. split; [|split].
  - intros E0 z Hz. destruct (In1 z Hz) as (d & Hd & Hv). unfold potential_radial_derivs. cbn [vz vx vy]. rewrite Hd. cbn [bind]. rewrite potential_series_axis. rewrite <- Hv, E0. reflexivity.
  - intros z Hz. split; [|split].
    + apply (cellwise_derive z0 h N (fun j => poly_at (c j)) (fun j => poly_at' (c j)) Hh HN); auto.
      * intros j x _. apply poly_derive.
      * intros j Hj. destruct (Ends j) as (_ & _ & _ & D & _); [lia|]. destruct (Ends (S j)) as (A & _); [lia|]. congruence.
      * intros j Hj. destruct (Ends j) as (_ & _ & _ & _ & D & _); [lia|]. destruct (Ends (S j)) as (_ & A & _); [lia|]. congruence.
    + apply (cellwise_derive z0 h N (fun j => poly_at' (c j)) (fun j => poly_at'' (c j)) Hh HN); auto.
      * intros j x _. apply poly_derive'.
      * intros j Hj. destruct (Ends j) as (_ & _ & _ & _ & D & _); [lia|]. destruct (Ends (S j)) as (_ & A & _); [lia|]. congruence.
      * intros j Hj. destruct (Ends j) as (_ & _ & _ & _ & _ & D); [lia|]. destruct (Ends (S j)) as (_ & _ & A & _); [lia|]. congruence.
    + apply (cellwise_continuous z0 h N (fun j => poly_at'' (c j)) Hh HN); auto.
      * intros j x _. apply (ex_derive_continuous (poly_at'' (c j))). eexists. apply poly_derive''.
      * intros j Hj. destruct (Ends j) as (_ & _ & _ & _ & _ & D); [lia|]. destruct (Ends (S j)) as (_ & _ & A & _); [lia|]. congruence.
  - intros j Hj. destruct (Ends j Hj) as (A & B & C & _). replace (i + 1)%nat with (S i) by lia. replace (i + 2)%nat with (S (S i)) by lia.
    assert (Q : z0 + INR j * h <= z0 + INR j * h < z0 + (INR j + 1) * h) by lra. rewrite !(cellwise_in z0 h _ (z0 + INR j * h) j Hh Q).
    replace (z0 + INR j * h - (z0 + INR j * h)) with 0 by ring. auto.
Qed.
Print Assumptions C45_smooth.
Example C45_nonvacuous : exists row, nth_error (quintic_spline_coefficients (samples 0 1 3) (fun i j => INR i + INR j) (fun _ _ => (0, 0, 0, 0))) 1 = Some row /\
  poly_at (row 0%nat) 0 = 1 /\ poly_at (row 0%nat) 1 = 2.
Proof.
  destruct (C45_end_values 0 1 3 (fun i j => INR i + INR j) (fun _ _ => (0, 0, 0, 0)) 0 1 ltac:(lra) ltac:(lia) ltac:(lia)) as (row & E & P1 & _ & _ & P2 & _).
  exists row. split; [exact E|]. rewrite P1, P2. simpl. split; ring.
Qed.
