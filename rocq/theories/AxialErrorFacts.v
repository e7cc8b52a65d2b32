(** The table of an axial field and the error of its interpolation (used by C78 to C80). *)
From Coq Require Import Reals ZArith Lra Lia Psatz.
From Coquelicot Require Import Coquelicot.
From Verif Require Import Base BaseFacts Vec GeomModel OutwardFacts FieldModel FieldFacts SeriesModel SeriesFacts InterpFacts DispatchModel
  AxialModel HermiteError LegendreFacts.
Local Open Scope R_scope.

Lemma linspace_samples a b N : (2 <= N)%nat -> linspace a b N = samples a ((b - a) / INR (N - 1)) N.
Proof. intros H. unfold linspace. destruct (N <=? 1)%nat eqn:E; [apply Nat.leb_le in E; lia|]. reflexivity. Qed.
Lemma linspace_length a b N : length (linspace a b N) = N.
Proof. unfold linspace, arange. destruct (N <=? 1)%nat; rewrite map_length, seq_length; reflexivity. Qed.

(** sums of absolute values *)
Definition weight (K : vec3 -> R) (c : charges) : R :=
  Rsum (map (fun x => Rabs (fst x) * Rsum (map (fun jp => Rabs (fst jp) * K (snd jp)) (snd x))) (q_items c)).
Lemma Rsum_abs {A} (f g : A -> R) (l : list A) : (forall a, In a l -> Rabs (f a) <= g a) -> Rabs (Rsum (map f l)) <= Rsum (map g l).
Proof.
  induction l as [|a l IH]; intros H; cbn [map Rsum fold_right].
  - rewrite Rabs_R0. lra.
  - change (Rabs (f a + Rsum (map f l)) <= g a + Rsum (map g l)). eapply Rle_trans; [apply Rabs_triang|]. pose proof (H a (or_introl eq_refl)). pose proof (IH (fun b Hb => H b (or_intror Hb))). lra.
Qed.
Lemma evaluate_abs K B c : (forall x, In x (q_items c) -> forall jp, In jp (snd x) -> Rabs (K (snd jp)) <= B (snd jp)) -> Rabs (evaluate K c) <= weight B c.
Proof.
  intros H. unfold evaluate, weight. apply Rsum_abs. intros x Hx. rewrite Rabs_mult. apply Rmult_le_compat_l; [apply Rabs_pos|].
  unfold source_sum. apply Rsum_abs. intros jp Hjp. rewrite Rabs_mult. apply Rmult_le_compat_l; [apply Rabs_pos|]. apply (H x Hx jp Hjp).
Qed.
Lemma Rsum_mono {A} (f g : A -> R) (l : list A) : (forall a, In a l -> f a <= g a) -> Rsum (map f l) <= Rsum (map g l).
Proof.
  induction l as [|a l IH]; intros H; cbn [map Rsum fold_right]; [lra|].
  change (f a + Rsum (map f l) <= g a + Rsum (map g l)). pose proof (H a (or_introl eq_refl)). pose proof (IH (fun b Hb => H b (or_intror Hb))). lra.
Qed.
Lemma weight_mono K B c : (forall x, In x (q_items c) -> forall jp, In jp (snd x) -> K (snd jp) <= B (snd jp)) -> weight K c <= weight B c.
Proof.
  intros H. unfold weight. apply Rsum_mono. intros x Hx. apply Rmult_le_compat_l; [apply Rabs_pos|]. apply Rsum_mono. intros jp Hjp. apply Rmult_le_compat_l; [apply Rabs_pos|]. apply (H x Hx jp Hjp).
Qed.
Lemma weight_scale k K c : weight (fun q => k * K q) c = k * weight K c.
Proof.
  unfold weight. rewrite <- Rsum_scal. apply Rsum_ext. intros x _. rewrite <- Rsum_scal, <- Rsum_scal. rewrite <- Rsum_scal. apply Rsum_ext. intros jp _. ring.
Qed.
Lemma Rsum_ge_0 {A} (f : A -> R) (l : list A) : (forall a, 0 <= f a) -> 0 <= Rsum (map f l).
Proof. intros H. induction l as [|a l IH]; [cbn; lra|]. change (0 <= f a + Rsum (map f l)). pose proof (H a). lra. Qed.
Lemma weight_nonneg K c : (forall q, 0 <= K q) -> 0 <= weight K c.
Proof.
  intros H. unfold weight. apply Rsum_ge_0. intros x. apply Rmult_le_pos; [apply Rabs_pos|]. apply Rsum_ge_0. intros jp. apply Rmult_le_pos; [apply Rabs_pos|apply H].
Qed.

(** the derivatives of the axial potentials *)
Definition elec_chain (f : bem) (n : nat) (s : R) : R := evaluate (fun q => vx q / 2 * ring_D (vx q) n (s - vz q)) (b_elec f).
Definition mag_chain (f : bem) (n : nat) (s : R) : R :=
  evaluate (fun q => vx q / 2 * ring_D (vx q) n (s - vz q)) (b_mag f) + evaluate (fun q => current_D (vx q) n (s - vz q)) (b_cur f).
Definition axial_chain (elec : bool) (f : bem) : nat -> R -> R := if elec then elec_chain f else mag_chain f.
Definition sources_off_axis (elec : bool) (f : bem) : Prop := if elec then off_axis (b_elec f) else off_axis (b_mag f) /\ off_axis (b_cur f).
Lemma axial_chain_derive elec f : sources_off_axis elec f -> forall n (x : R), is_derive (axial_chain elec f n) x (axial_chain elec f (S n) x).
Proof.
  destruct elec; cbn [sources_off_axis axial_chain].
  - intros H n x. apply (evaluate_chain (fun n s q => vx q / 2 * ring_D (vx q) n (s - vz q))); [|exact H]. intros q Hq. apply (ring_chain (vx q) (vz q) Hq).
  - intros [Hm Hc] n x. apply (is_derive_plus (fun s => evaluate (fun q => vx q / 2 * ring_D (vx q) n (s - vz q)) (b_mag f)) (fun s => evaluate (fun q => current_D (vx q) n (s - vz q)) (b_cur f)) x).
    + apply (evaluate_chain (fun n s q => vx q / 2 * ring_D (vx q) n (s - vz q))); [|exact Hm]. intros q Hq. apply (ring_chain (vx q) (vz q) Hq).
    + apply (evaluate_chain (fun n s q => current_D (vx q) n (s - vz q))); [|exact Hc]. intros q Hq. apply (current_chain (vx q) (vz q) Hq).
Qed.
(** the tables hold these derivatives *)
Definition table_of (elec : bool) (f : bem) (zs : list R) : list (list R) := if elec then electrostatic_axial_derivatives f zs else magnetostatic_axial_derivatives f zs.
Lemma table_entry elec f zs i j z : nth_error zs j = Some z -> (i < 9)%nat -> nth i (nth j (table_of elec f zs) []) 0 = axial_chain elec f i z.
Proof.
  intros Hj Hi. destruct elec; cbn [table_of axial_chain].
  - unfold electrostatic_axial_derivatives. rewrite (nth_error_nth _ j [] (x := axial_row axial_derivatives_radial_ring z (b_elec f))) by (rewrite nth_error_map, Hj; reflexivity).
    rewrite axial_row_nth by exact Hi. apply evaluate_ext. intros x Hx jp Hjp. apply ring_nth. exact Hi.
  - unfold magnetostatic_axial_derivatives.
    rewrite (nth_error_nth _ j [] (x := map2 Rplus (axial_row axial_derivatives_radial_ring z (b_mag f)) (axial_row current_axial_derivatives_radial_ring z (b_cur f)))) by (rewrite nth_error_map, Hj; reflexivity).
    transitivity (nth i (axial_row axial_derivatives_radial_ring z (b_mag f)) 0 + nth i (axial_row current_axial_derivatives_radial_ring z (b_cur f)) 0).
    { do 9 (destruct i as [|i]; [reflexivity|]). lia. }
    rewrite !axial_row_nth by exact Hi. unfold mag_chain. f_equal; apply evaluate_ext; intros x Hx jp Hjp; [apply ring_nth|apply current_nth]; exact Hi.
Qed.

(** the rings are at least [D] away from the points of the axis between [a] and [b] *)
Definition rings_away (a b D : R) (c : charges) : Prop :=
  forall x, In x (q_items c) -> forall jp, In jp (snd x) -> forall s, a <= s <= b -> D <= norm_2d (s - vz (snd jp)) (vx (snd jp)).
Definition sources_away (elec : bool) (a b D : R) (f : bem) : Prop := if elec then rings_away a b D (b_elec f) else rings_away a b D (b_mag f) /\ rings_away a b D (b_cur f).
(** the sum of |charge * jacobian * radius| over all quadrature points *)
Definition strength (elec : bool) (f : bem) : R :=
  if elec then weight (fun q => Rabs (vx q)) (b_elec f) else weight (fun q => Rabs (vx q)) (b_mag f) + weight (fun q => Rabs (vx q)) (b_cur f).
Lemma strength_nonneg elec f : 0 <= strength elec f.
Proof.
  assert (W : forall c, 0 <= weight (fun q => Rabs (vx q)) c) by (intros c; apply weight_nonneg; intros; apply Rabs_pos).
  destruct elec; cbn [strength]; [apply W|]. pose proof (W (b_mag f)). pose proof (W (b_cur f)). lra.
Qed.
Lemma inv_pow_le D rho n : 0 < D <= rho -> / rho ^ n <= / D ^ n.
Proof. intros H. apply Rinv_le_contravar; [apply pow_lt; lra|apply pow_incr; lra]. Qed.
Lemma axial_chain_bound elec f a b D n s : 0 < D -> sources_away elec a b D f -> a <= s <= b ->
  Rabs (axial_chain elec f (S n) s) <= strength elec f / 2 * (INR (fact (S n)) / D ^ (S (S n))).
Proof.
  intros HD HA Hs.
  set (k := INR (fact (S n)) / D ^ (S (S n)) / 2).
  assert (Ring : forall c, rings_away a b D c -> Rabs (evaluate (fun q => vx q / 2 * ring_D (vx q) (S n) (s - vz q)) c) <= k * weight (fun q => Rabs (vx q)) c).
  { intros c Hc. rewrite <- weight_scale. apply evaluate_abs. intros x Hx jp Hjp. pose proof (Hc x Hx jp Hjp s Hs) as HR.
    rewrite Rabs_mult. unfold Rdiv at 1. rewrite Rabs_mult, (Rabs_pos_eq (/ 2)) by lra.
    pose proof (ring_D_bound (vx (snd jp)) (S n) (s - vz (snd jp)) ltac:(lra)) as B. pose proof (inv_pow_le D _ (S (S n)) (conj HD HR)) as I.
    pose proof (Rabs_pos (vx (snd jp))) as Pv. pose proof (pos_INR (fact (S n))) as Pf. unfold k.
    apply Rle_trans with (Rabs (vx (snd jp)) * / 2 * (INR (fact (S n)) / D ^ S (S n))); [|right; field; apply pow_nonzero; lra].
    apply Rmult_le_compat_l; [lra|]. eapply Rle_trans; [exact B|]. apply Rmult_le_compat_l; [exact Pf|exact I]. }
  assert (Cur : forall c, rings_away a b D c -> Rabs (evaluate (fun q => current_D (vx q) (S n) (s - vz q)) c) <= k * weight (fun q => Rabs (vx q)) c).
  { intros c Hc. rewrite <- weight_scale. apply evaluate_abs. intros x Hx jp Hjp. pose proof (Hc x Hx jp Hjp s Hs) as HR.
    pose proof (current_D_bound (vx (snd jp)) n (s - vz (snd jp)) ltac:(lra)) as B. pose proof (inv_pow_le D _ (S (S n)) (conj HD HR)) as I.
    pose proof (Rabs_pos (vx (snd jp))) as Pv. pose proof (pos_INR (fact (S n))) as Pf. unfold k. eapply Rle_trans; [exact B|].
    apply Rle_trans with (Rabs (vx (snd jp)) / 2 * (INR (fact (S n)) / D ^ S (S n))); [|right; field; apply pow_nonzero; lra].
    apply Rmult_le_compat_l; [lra|]. apply Rmult_le_compat_l; [exact Pf|exact I]. }
  replace (strength elec f / 2 * (INR (fact (S n)) / D ^ S (S n))) with (k * strength elec f) by (unfold k; field; apply pow_nonzero; lra).
  destruct elec; cbn [axial_chain sources_away strength] in *; [apply Ring; exact HA|]. destruct HA as [Hm Hc]. unfold mag_chain.
  eapply Rle_trans; [apply Rabs_triang|]. pose proof (Ring _ Hm). pose proof (Cur _ Hc). lra.
Qed.

(** ** The field built by the constructor *)
Definition axial_table (elec : bool) (a : axial) : list coeff_row := if elec then a_elec a else a_mag a.
Definition range_step (a b : R) (N : nat) : R := (b - a) / INR (N - 1).
Lemma range_step_pos a b N : a < b -> (2 <= N)%nat -> 0 < range_step a b N.
Proof. intros H HN. apply Rdiv_lt_0_compat; [lra|]. apply lt_0_INR. lia. Qed.
Lemma range_step_total a b N : (2 <= N)%nat -> a + INR (N - 1) * range_step a b N = b.
Proof. intros HN. unfold range_step. field. apply Rgt_not_eq. apply lt_0_INR. lia. Qed.
Lemma samples_nth_error z0 h N i : (i < N)%nat -> nth_error (samples z0 h N) i = Some (z0 + INR i * h).
Proof. intros H. unfold samples, arange. rewrite nth_error_map, (nth_error_nth' _ 0%nat) by (rewrite seq_length; exact H). rewrite seq_nth by exact H. reflexivity. Qed.
Lemma table_coefficients_ok spline a b N table : (2 <= N)%nat -> exists cubic,
  table_coefficients spline (linspace a b N) table = Ok (quintic_spline_coefficients (samples a (range_step a b N) N) (fun i j => nth i (nth j table []) 0) cubic).
Proof.
  intros HN. unfold table_coefficients. rewrite linspace_length. destruct (N =? 0)%nat eqn:E; [apply Nat.eqb_eq in E; lia|].
  rewrite linspace_samples by exact HN. fold (range_step a b N). rewrite samples_get by lia. cbn [bind]. eexists. reflexivity.
Qed.
Lemma constructor_ok spline f a b N : b_class f = FieldRadialBEM -> a < b -> (2 <= number_of_samples f N)%nat ->
  let n := number_of_samples f N in
  exists A, field_radial_axial spline f a b N = Ok A /\ a_z A = samples a (range_step a b n) n /\
    forall elec, exists cubic, axial_table elec A = quintic_spline_coefficients (a_z A) (fun i j => nth i (nth j (table_of elec f (a_z A)) []) 0) cubic.
Proof.
  intros Hc Hab HN n. unfold field_radial_axial. rewrite Hc. fold n. cbn [py_assert bind]. destruct (Rlt_dec a b) as [_|B]; [|contradiction]. cbn [py_assert bind].
  destruct (table_coefficients_ok spline a b n (electrostatic_axial_derivatives f (linspace a b n)) HN) as (c1 & E1). rewrite E1. cbn [bind].
  destruct (table_coefficients_ok spline a b n (magnetostatic_axial_derivatives f (linspace a b n)) HN) as (c2 & E2). rewrite E2. cbn [bind].
  rewrite linspace_samples by exact HN. fold (range_step a b n). unfold new_axial. rewrite !quintic_table_length, samples_length, Nat.eqb_refl. cbn [py_assert bind].
  rewrite !samples_get by lia. cbn [bind]. rewrite range_step_total by exact HN. destruct (Rlt_dec (a + INR 0 * range_step a b n) b) as [_|B]; [|cbn in B; lra]. cbn [py_assert bind].
  eexists. split; [reflexivity|]. split; [reflexivity|]. intros elec. cbn [a_z]. destruct elec; cbn [axial_table table_of a_elec a_mag]; eexists; reflexivity.
Qed.
(** what evaluation at a height between the samples uses *)
Lemma axial_inside spline f a b N A elec z : b_class f = FieldRadialBEM -> a < b -> (2 <= number_of_samples f N)%nat -> field_radial_axial spline f a b N = Ok A -> a <= z < b ->
  let h := range_step a b (number_of_samples f N) in
  exists j row, (S j < number_of_samples f N)%nat /\ a + INR j * h <= z < a + (INR j + 1) * h /\
    series_derivs (a_z A) (axial_table elec A) z = Ok (Some (fun i => poly_at (row i) (z - (a + INR j * h)))) /\
    forall i, (i <= 6)%nat ->
      poly_at (row i) 0 = axial_chain elec f i (a + INR j * h) /\ poly_at' (row i) 0 = axial_chain elec f (S i) (a + INR j * h) /\ poly_at'' (row i) 0 = axial_chain elec f (S (S i)) (a + INR j * h) /\
      poly_at (row i) h = axial_chain elec f i (a + INR j * h + h) /\ poly_at' (row i) h = axial_chain elec f (S i) (a + INR j * h + h) /\ poly_at'' (row i) h = axial_chain elec f (S (S i)) (a + INR j * h + h).
Proof.
  intros Hc Hab HN HA Hz h. destruct (constructor_ok spline f a b N Hc Hab HN) as (A' & E & Ez & Et). rewrite HA in E. injection E as <-.
  destruct (Et elec) as (cubic & Eq). set (n := number_of_samples f N) in *. pose proof (range_step_pos a b n Hab HN) as Hh. fold h in Hh, Ez. pose proof (range_step_total a b n HN) as Tot. fold h in Tot.
  destruct (cell_exists a h n z Hh HN ltac:(lra)) as (j & Hj & Hcell).
  exists j, (quintic_row (samples a h n) (fun i j => nth i (nth j (table_of elec f (samples a h n)) []) 0) cubic j). split; [exact Hj|]. split; [exact Hcell|]. rewrite Ez in Eq. split.
  - destruct (derivs_inside a h n (axial_table elec A) z j Hh Hj Hcell) as (row & Hrow & Ed); [rewrite Eq; apply quintic_table_length|].
    rewrite Ez, Ed. rewrite Eq, quintic_table_get in Hrow by exact Hj. injection Hrow as <-. reflexivity.
  - intros i Hi. pose proof (quintic_row_ends a h n (fun i j => nth i (nth j (table_of elec f (samples a h n)) []) 0) cubic i j ltac:(lra) Hj Hi) as Q. cbv beta in Q.
    assert (Hnext : a + INR j * h + h = a + INR (S j) * h) by (rewrite S_INR; ring). rewrite Hnext.
    rewrite !(table_entry elec f (samples a h n) _ j (a + INR j * h)), !(table_entry elec f (samples a h n) _ (S j) (a + INR (S j) * h)) in Q by (first [apply samples_nth_error; lia|lia]). exact Q.
Qed.
(** the interpolated derivative number i differs from the true one by at most ... *)
Definition interpolation_error (elec : bool) (f : bem) (D h : R) (i : nat) : R := strength elec f / (2 * D ^ (i + 1)) * (INR (fact (i + 6)) / 720) * (h / (2 * D)) ^ 6.
Lemma axial_accuracy spline f a b N A elec z D : b_class f = FieldRadialBEM -> a < b -> (2 <= number_of_samples f N)%nat -> field_radial_axial spline f a b N = Ok A -> a <= z < b ->
  sources_off_axis elec f -> 0 < D -> sources_away elec a b D f ->
  let h := range_step a b (number_of_samples f N) in
  exists d, series_derivs (a_z A) (axial_table elec A) z = Ok (Some d) /\
    (forall i, (i <= 6)%nat -> Rabs (d i - axial_chain elec f i z) <= interpolation_error elec f D h i) /\
    (forall j, (S j < number_of_samples f N)%nat -> z = a + INR j * h -> forall i, (i <= 6)%nat -> d i = axial_chain elec f i z).
Proof.
  intros Hc Hab HN HA Hz Ho HD Haw h. destruct (axial_inside spline f a b N A elec z Hc Hab HN HA Hz) as (j & row & Hj & Hcell & Ed & Ends). fold h in Hcell, Ed, Ends.
  pose proof (range_step_pos a b _ Hab HN) as Hh. fold h in Hh. pose proof (range_step_total a b _ HN) as Tot. fold h in Tot.
  assert (Hcells : forall k, (S k < number_of_samples f N)%nat -> a <= a + INR k * h /\ a + INR k * h + h <= b).
  { intros k Hk. pose proof (pos_INR k). assert (INR k + 1 <= INR (number_of_samples f N - 1)) by (rewrite <- S_INR; apply le_INR; lia). split; [nra|]. rewrite <- Tot. nra. }
  eexists. split; [exact Ed|]. cbv beta. split.
  - intros i Hi. destruct (Ends i Hi) as (A0 & A1 & A2 & B0 & B1 & B2). destruct (Hcells j Hj) as [C1 C2].
    pose proof (hermite_error (fun n => axial_chain elec f (i + n)%nat) (row i) (a + INR j * h) h (strength elec f / 2 * (INR (fact (i + 6)) / D ^ S (i + 6))) (z - (a + INR j * h)) Hh) as HE.
    cbv beta in HE. rewrite Nat.add_0_r, (Nat.add_1_r i) in HE. replace (i + 2)%nat with (S (S i)) in HE by lia.
    assert (Ez : a + INR j * h + (z - (a + INR j * h)) = z) by ring. rewrite Ez in HE.
    eapply Rle_trans; [apply HE; auto; try lra|].
    + intros n t. rewrite Nat.add_succ_r. apply (axial_chain_derive elec f Ho).
    + intros t Ht. replace (i + 6)%nat with (S (i + 5))%nat by lia. apply (axial_chain_bound elec f a b D (i + 5) t HD Haw). lra.
    + unfold interpolation_error. right. replace (S (i + 6)) with (i + 1 + 6)%nat by lia. rewrite pow_add. cbn [pow]. field. split; [|apply pow_nonzero]; lra.
  - intros k Hk Ek i Hi. assert (k = j).
    { assert (L1 : INR k < INR j + 1) by (apply (Rmult_lt_reg_r h); [exact Hh|]; lra). assert (L2 : INR j <= INR k) by (apply (Rmult_le_reg_r h); [exact Hh|]; lra).
      rewrite <- S_INR in L1. apply INR_lt in L1. apply INR_le in L2. lia. }
    subst k. rewrite Ek. replace (a + INR j * h - (a + INR j * h)) with 0 by ring. apply (Ends i Hi).
Qed.
