(** The radial series and the quintic interpolation: indexing, gradients, smoothness. *)
From Coq Require Import Reals ZArith Lra Lia Psatz.
From Coquelicot Require Import Coquelicot.
From Verif Require Import Base BaseFacts Vec GeomModel OutwardFacts FieldModel FieldFacts SeriesModel SeriesFacts.
Local Open Scope R_scope.

(** ** Equally spaced samples *)
Definition samples (z0 h : R) (N : nat) : list R := map (fun i => z0 + INR i * h) (arange N).
Lemma samples_length z0 h N : length (samples z0 h N) = N.
Proof. unfold samples, arange. rewrite map_length, seq_length. reflexivity. Qed.
Lemma samples_get z0 h N i : (i < N)%nat -> np_get (samples z0 h N) i = Ok (z0 + INR i * h).
Proof.
  intros H. unfold np_get. rewrite (nth_error_nth' _ 0) by (rewrite samples_length; exact H). unfold samples. rewrite nth_arange_map by exact H. reflexivity.
Qed.
Lemma samples_nth z0 h N i : (i < N)%nat -> nth i (samples z0 h N) 0 = z0 + INR i * h.
Proof. intros H. unfold samples. rewrite nth_arange_map by exact H. reflexivity. Qed.
Lemma Int_part_nat x j : INR j <= x < INR j + 1 -> Int_part x = Z.of_nat j.
Proof.
  intros H. pose proof (base_Int_part x) as [B1 B2]. rewrite INR_IZR_INZ in H. assert (A : (Int_part x < Z.of_nat j + 1)%Z) by (apply lt_IZR; rewrite plus_IZR; simpl; lra).
  assert (B : (Z.of_nat j < Int_part x + 1)%Z) by (apply lt_IZR; rewrite plus_IZR; simpl; lra). lia.
Qed.
Lemma c_int_nat x j : INR j <= x < INR j + 1 -> c_int x = Z.of_nat j.
Proof. intros H. unfold c_int. destruct (Rle_dec 0 x) as [_|N]; [apply Int_part_nat; exact H|]. pose proof (pos_INR j). lra. Qed.
Lemma index_cell z0 h N j z : 0 < h -> (j < N)%nat -> z0 + INR j * h <= z < z0 + (INR j + 1) * h -> series_index (samples z0 h N) z0 (z0 + INR 1 * h) z = j.
Proof.
  intros Hh Hj [H1 H2]. unfold series_index. rewrite samples_length. assert (E : (z - z0) / (z0 + INR 1 * h - z0) = (z - z0) / h) by (f_equal; simpl; ring). rewrite E.
  rewrite (c_int_nat _ j).
  - rewrite Z.max_r by lia. rewrite Z.min_l by lia. apply Nat2Z.id.
  - split; [apply Rle_div_r|apply Rlt_div_l]; lra.
Qed.
Lemma find_cell (x : R) : 0 <= x -> exists j, INR j <= x < INR j + 1.
Proof.
  intros H. exists (Z.to_nat (Int_part x)). pose proof (base_Int_part x) as [B1 B2].
  assert (P : (0 <= Int_part x)%Z). { apply le_IZR. assert (Q : (-1 < Int_part x)%Z) by (apply lt_IZR; simpl; lra). apply IZR_le. lia. }
  rewrite INR_IZR_INZ, Z2Nat.id by exact P. lra.
Qed.
Lemma cell_exists z0 h N z : 0 < h -> (2 <= N)%nat -> z0 <= z < z0 + INR (N - 1) * h -> exists j, (S j < N)%nat /\ z0 + INR j * h <= z < z0 + (INR j + 1) * h.
Proof.
  intros Hh HN [H1 H2]. destruct (find_cell ((z - z0) / h)) as (j & J1 & J2); [apply Rle_div_r; lra|].
  apply Rle_div_r in J1; [|exact Hh]. apply Rlt_div_l in J2; [|exact Hh]. exists j. split; [|lra].
  destruct (Nat.lt_ge_cases (S j) N) as [L|L]; [exact L|]. exfalso.
  assert (Q : (N - 1 <= j)%nat) by lia. apply le_INR in Q. assert (INR (N - 1) * h <= INR j * h) by (apply Rmult_le_compat_r; lra). lra.
Qed.

(** ** Where the series is evaluated *)
Lemma derivs_outside z0 h N coeff z : (2 <= N)%nat -> z < z0 \/ z0 + INR (N - 1) * h < z -> series_derivs (samples z0 h N) coeff z = Ok None.
Proof.
  intros HN H. unfold series_derivs. rewrite samples_length, !samples_get by lia. cbn [bind]. replace (z0 + INR 0 * h) with z0 by (simpl; ring).
  destruct (Rle_dec z0 z); [|reflexivity]. destruct (Rle_dec z (z0 + INR (N - 1) * h)); [lra|reflexivity].
Qed.
Lemma derivs_inside z0 h N coeff z j : 0 < h -> (S j < N)%nat -> z0 + INR j * h <= z < z0 + (INR j + 1) * h -> length coeff = (N - 1)%nat ->
  exists row, nth_error coeff j = Some row /\ series_derivs (samples z0 h N) coeff z = Ok (Some (fun i => poly_at (row i) (z - (z0 + INR j * h)))).
Proof.
  intros Hh Hj Hz Hl. destruct (nth_error coeff j) as [row|] eqn:E; [|apply nth_error_None in E; lia]. exists row. split; [reflexivity|].
  unfold series_derivs. rewrite samples_length, !samples_get by lia. cbn [bind]. replace (z0 + INR 0 * h) with z0 by (simpl; ring).
  assert (P := pos_INR j). assert (Q0 : 0 <= INR j * h) by (apply Rmult_le_pos; lra).
  assert (Q1 : INR j + 1 <= INR (N - 1)) by (rewrite <- S_INR; apply le_INR; lia). assert (Q2 : (INR j + 1) * h <= INR (N - 1) * h) by (apply Rmult_le_compat_r; lra).
  destruct (Rle_dec z0 z); [|lra]. destruct (Rle_dec z (z0 + INR (N - 1) * h)); [|lra]. try (rewrite samples_get by lia). cbn [bind].
  rewrite (index_cell z0 h N j z Hh) by (lia || exact Hz). rewrite samples_get by lia. cbn [bind]. unfold np_get. rewrite E. reflexivity.
Qed.
Lemma derivs_last z0 h N coeff : 0 < h -> (2 <= N)%nat -> length coeff = (N - 1)%nat ->
  series_derivs (samples z0 h N) coeff (z0 + INR (N - 1) * h) = Err IndexError.
Proof.
  intros Hh HN Hl. unfold series_derivs. rewrite samples_length, !samples_get by lia. cbn [bind]. replace (z0 + INR 0 * h) with z0 by (simpl; ring).
  assert (Q : 0 <= INR (N - 1) * h) by (apply Rmult_le_pos; [apply pos_INR|lra]).
  destruct (Rle_dec z0 _); [|lra]. destruct (Rle_dec _ _); [|lra]. try (rewrite samples_get by lia). cbn [bind].
  rewrite (index_cell z0 h N (N - 1) _ Hh) by (lia || lra). rewrite samples_get by lia. cbn [bind]. unfold np_get.
  destruct (nth_error coeff (N - 1)) eqn:E; [|reflexivity]. exfalso. assert (L : (N - 1 < length coeff)%nat) by (apply nth_error_Some; congruence). lia.
Qed.

(** ** Gradient of the series *)
Lemma norm_pow2 x y k : norm_2d x y ^ (2 * k) = (x ^ 2 + y ^ 2) ^ k.
Proof. rewrite pow_mult, norm_2d_sqr. reflexivity. Qed.
Lemma potential_series_xy d x y : potential_series d (norm_2d x y) =
  d 0%nat - (x ^ 2 + y ^ 2) / 4 * d 2%nat + (x ^ 2 + y ^ 2) ^ 2 / 64 * d 4%nat - (x ^ 2 + y ^ 2) ^ 3 / 2304 * d 6%nat + (x ^ 2 + y ^ 2) ^ 4 / 147456 * d 8%nat.
Proof.
  unfold potential_series. rewrite <- (norm_pow2 x y 2), <- (norm_pow2 x y 3), <- (norm_pow2 x y 4), <- (norm_2d_sqr x y). reflexivity.
Qed.
Lemma field_series_xy d p : let s := vx p ^ 2 + vy p ^ 2 in
  field_series d p = V3 (vx p * (0.5 * (d 2%nat - s / 8 * d 4%nat + s ^ 2 / 192 * d 6%nat - s ^ 3 / 9216 * d 8%nat)))
                        (vy p * (0.5 * (d 2%nat - s / 8 * d 4%nat + s ^ 2 / 192 * d 6%nat - s ^ 3 / 9216 * d 8%nat)))
                        (- d 1%nat + s / 4 * d 3%nat - s ^ 2 / 64 * d 5%nat + s ^ 3 / 2304 * d 7%nat).
Proof.
  cbv zeta. unfold field_series. rewrite <- (norm_pow2 (vx p) (vy p) 2), <- (norm_pow2 (vx p) (vy p) 3), <- (norm_2d_sqr (vx p) (vy p)). reflexivity.
Qed.
Lemma series_gradient d p : is_derive (fun t => potential_series d (norm_2d t (vy p))) (vx p) (- vx (field_series d p)) /\
  is_derive (fun t => potential_series d (norm_2d (vx p) t)) (vy p) (- vy (field_series d p)).
Proof.
  rewrite field_series_xy. cbn [vx vy]. replace 0.5 with (/ 2) by lra. split.
  - eapply is_derive_ext; [intros t; symmetry; apply potential_series_xy|]. auto_derive; [exact I|]. simpl. field.
  - eapply is_derive_ext; [intros t; symmetry; apply potential_series_xy|]. auto_derive; [exact I|]. simpl. field.
Qed.

(** ** Quintic interpolation *)
Definition poly_at' (c : poly6) (d : R) : R := let '(c0, c1, c2, c3, c4, c5) := c in 5 * c0 * d ^ 4 + 4 * c1 * d ^ 3 + 3 * c2 * d ^ 2 + 2 * c3 * d + c4.
Definition poly_at'' (c : poly6) (d : R) : R := let '(c0, c1, c2, c3, c4, c5) := c in 20 * c0 * d ^ 3 + 12 * c1 * d ^ 2 + 6 * c2 * d + 2 * c3.
Definition poly_at''' (c : poly6) (d : R) : R := let '(c0, c1, c2, c3, c4, c5) := c in 60 * c0 * d ^ 2 + 24 * c1 * d + 6 * c2.
Lemma poly_derive c (x : R) : is_derive (poly_at c) x (poly_at' c x).
Proof. destruct c as [[[[[c0 c1] c2] c3] c4] c5]. unfold poly_at, poly_at', poly_at'', poly_at'''. auto_derive; [exact I|]. ring. Qed.
Lemma poly_derive' c (x : R) : is_derive (poly_at' c) x (poly_at'' c x).
Proof. destruct c as [[[[[c0 c1] c2] c3] c4] c5]. unfold poly_at, poly_at', poly_at'', poly_at'''. auto_derive; [exact I|]. ring. Qed.
Lemma poly_derive'' c (x : R) : is_derive (poly_at'' c) x (poly_at''' c x).
Proof. destruct c as [[[[[c0 c1] c2] c3] c4] c5]. unfold poly_at, poly_at', poly_at'', poly_at'''. auto_derive; [exact I|]. ring. Qed.
Lemma hermite_ends h ya ya' ya'' yb yb' yb'' : h <> 0 ->
  let c := bernstein_to_power h (bernstein_hermite h ya ya' ya'' yb yb' yb'') in
  poly_at c 0 = ya /\ poly_at' c 0 = ya' /\ poly_at'' c 0 = ya'' /\ poly_at c h = yb /\ poly_at' c h = yb' /\ poly_at'' c h = yb''.
Proof. intros Hh. cbn. repeat split; field; exact Hh. Qed.

(** ** Gluing *)
Lemma derive_glue (f g1 g2 : R -> R) (x l d : R) : 0 < d ->
  (forall s, x - d < s < x -> f s = g1 s) -> (forall s, x <= s < x + d -> f s = g2 s) -> g1 x = g2 x ->
  is_derive g1 x l -> is_derive g2 x l -> is_derive f x l.
Proof.
  intros Hd F1 F2 E D1 D2. apply is_derive_Reals. apply is_derive_Reals in D1. apply is_derive_Reals in D2.
  intros eps He. destruct (D1 eps He) as [d1 H1]. destruct (D2 eps He) as [d2 H2].
  assert (Hm : 0 < Rmin d (Rmin d1 d2)) by (apply Rmin_pos; [exact Hd|]; apply Rmin_pos; [apply (cond_pos d1)|apply (cond_pos d2)]).
  exists (mkposreal _ Hm). intros h Nh Hh. cbn in Hh.
  assert (A0 : Rabs h < d) by (eapply Rlt_le_trans; [exact Hh|apply Rmin_l]).
  assert (A1 : Rabs h < d1) by (eapply Rlt_le_trans; [exact Hh|eapply Rle_trans; [apply Rmin_r|apply Rmin_l]]).
  assert (A2 : Rabs h < d2) by (eapply Rlt_le_trans; [exact Hh|eapply Rle_trans; [apply Rmin_r|apply Rmin_r]]).
  apply Rabs_def2 in A0. assert (Ex : f x = g2 x) by (apply F2; lra).
  destruct (Rlt_le_dec h 0) as [L|L].
  - rewrite (F1 (x + h)) by lra. rewrite Ex, <- E. apply H1; assumption.
  - rewrite (F2 (x + h)) by lra. rewrite Ex. apply H2; assumption.
Qed.
(** A piecewise function on the cells of the grid *)
Definition cellwise (z0 h : R) (P : nat -> R -> R) (z : R) : R := let j := Z.to_nat (c_int ((z - z0) / h)) in P j (z - (z0 + INR j * h)).
Lemma cellwise_in z0 h P z j : 0 < h -> z0 + INR j * h <= z < z0 + (INR j + 1) * h -> cellwise z0 h P z = P j (z - (z0 + INR j * h)).
Proof.
  intros Hh [H1 H2]. unfold cellwise. rewrite (c_int_nat _ j), Nat2Z.id; [reflexivity|]. split; [apply Rle_div_r|apply Rlt_div_l]; lra.
Qed.
Lemma cellwise_derive z0 h N (P Q : nat -> R -> R) : 0 < h -> (2 <= N)%nat ->
  (forall j (x : R), (S j < N)%nat -> is_derive (P j) x (Q j x)) -> (forall j, (S (S j) < N)%nat -> P j h = P (S j) 0) -> (forall j, (S (S j) < N)%nat -> Q j h = Q (S j) 0) ->
  forall z, z0 < z < z0 + INR (N - 1) * h -> is_derive (cellwise z0 h P) z (cellwise z0 h Q z).
Proof.
  intros Hh HN HD HP HQ z [Z1 Z2]. destruct (cell_exists z0 h N z Hh HN) as (j & Hj & [C1 C2]); [lra|].
  rewrite (cellwise_in z0 h Q z j Hh) by lra.
  assert (Sh : forall k (s : R), (S k < N)%nat -> is_derive (fun t => P k (t - (z0 + INR k * h))) s (Q k (s - (z0 + INR k * h)))).
  { intros k s Hk. apply (shift_derive (P k) (Q k) (z0 + INR k * h) s). apply HD. exact Hk. }
  destruct (Rle_lt_or_eq_dec _ _ C1) as [C|C].
  - apply (derive_glue _ (fun t => P j (t - (z0 + INR j * h))) (fun t => P j (t - (z0 + INR j * h))) z _ (Rmin (z - (z0 + INR j * h)) (z0 + (INR j + 1) * h - z))).
    + apply Rmin_pos; lra.
    + intros s [S1 S2]. pose proof (Rmin_l (z - (z0 + INR j * h)) (z0 + (INR j + 1) * h - z)). apply cellwise_in; [exact Hh|lra].
    + intros s [S1 S2]. pose proof (Rmin_r (z - (z0 + INR j * h)) (z0 + (INR j + 1) * h - z)). apply cellwise_in; [exact Hh|lra].
    + reflexivity.
    + apply Sh. exact Hj.
    + apply Sh. exact Hj.
  - destruct j as [|j]; [simpl in C; lra|]. rewrite S_INR in *.
    apply (derive_glue _ (fun t => P j (t - (z0 + INR j * h))) (fun t => P (S j) (t - (z0 + (INR j + 1) * h))) z _ h Hh).
    + intros s [S1 S2]. apply cellwise_in; [exact Hh|lra].
    + intros s [S1 S2]. rewrite (cellwise_in z0 h P s (S j) Hh) by (rewrite S_INR; lra). rewrite S_INR. reflexivity.
    + replace (z - (z0 + INR j * h)) with h by lra. replace (z - (z0 + (INR j + 1) * h)) with 0 by lra. apply HP. exact Hj.
    + replace (Q (S j) (z - (z0 + (INR j + 1) * h))) with (Q j (z - (z0 + INR j * h))); [apply Sh; lia|].
      replace (z - (z0 + INR j * h)) with h by lra. replace (z - (z0 + (INR j + 1) * h)) with 0 by lra. apply HQ. exact Hj.
    + pose proof (Sh (S j) z Hj) as Q2. rewrite S_INR in Q2. exact Q2.
Qed.
Lemma continuous_glue (f g1 g2 : R -> R) (x d : R) : 0 < d ->
  (forall s, x - d < s < x -> f s = g1 s) -> (forall s, x <= s < x + d -> f s = g2 s) -> g1 x = g2 x ->
  continuous g1 x -> continuous g2 x -> continuous f x.
Proof.
  intros Hd F1 F2 E D1 D2. apply continuity_pt_filterlim in D1. apply continuity_pt_filterlim in D2. apply continuity_pt_filterlim.
  intros eps He. destruct (D1 eps He) as (d1 & P1 & H1). destruct (D2 eps He) as (d2 & P2 & H2).
  exists (Rmin d (Rmin d1 d2)). split; [apply Rmin_pos; [exact Hd|]; apply Rmin_pos; assumption|].
  intros s [[_ Ns] Hs]. cbn in Hs. unfold R_dist in *. cbn in *.
  assert (A0 : Rabs (s - x) < d) by (eapply Rlt_le_trans; [exact Hs|apply Rmin_l]).
  assert (A1 : Rabs (s - x) < d1) by (eapply Rlt_le_trans; [exact Hs|eapply Rle_trans; [apply Rmin_r|apply Rmin_l]]).
  assert (A2 : Rabs (s - x) < d2) by (eapply Rlt_le_trans; [exact Hs|eapply Rle_trans; [apply Rmin_r|apply Rmin_r]]).
  apply Rabs_def2 in A0. assert (Ex : f x = g2 x) by (apply F2; lra).
  destruct (Rlt_le_dec s x) as [L|L].
  - rewrite (F1 s) by lra. rewrite Ex, <- E. apply H1. split; [split; [exact I|exact Ns]|exact A1].
  - rewrite (F2 s) by lra. rewrite Ex. apply H2. split; [split; [exact I|exact Ns]|exact A2].
Qed.
Lemma cellwise_continuous z0 h N (P : nat -> R -> R) : 0 < h -> (2 <= N)%nat ->
  (forall j (x : R), (S j < N)%nat -> continuous (P j) x) -> (forall j, (S (S j) < N)%nat -> P j h = P (S j) 0) ->
  forall z, z0 < z < z0 + INR (N - 1) * h -> continuous (cellwise z0 h P) z.
Proof.
  intros Hh HN HD HP z [Z1 Z2]. destruct (cell_exists z0 h N z Hh HN) as (j & Hj & [C1 C2]); [lra|].
  assert (Sh : forall k (s c : R), (S k < N)%nat -> continuous (fun t => P k (t - c)) s).
  { intros k s c Hk. apply (continuous_comp (fun t => t - c) (P k) s).
    - apply (continuous_minus (fun t => t) (fun _ => c) s); [apply continuous_id|apply continuous_const].
    - apply HD. exact Hk. }
  destruct (Rle_lt_or_eq_dec _ _ C1) as [C|C].
  - apply (continuous_glue _ (fun t => P j (t - (z0 + INR j * h))) (fun t => P j (t - (z0 + INR j * h))) z (Rmin (z - (z0 + INR j * h)) (z0 + (INR j + 1) * h - z))).
    + apply Rmin_pos; lra.
    + intros s [S1 S2]. pose proof (Rmin_l (z - (z0 + INR j * h)) (z0 + (INR j + 1) * h - z)). apply cellwise_in; [exact Hh|lra].
    + intros s [S1 S2]. pose proof (Rmin_r (z - (z0 + INR j * h)) (z0 + (INR j + 1) * h - z)). apply cellwise_in; [exact Hh|lra].
    + reflexivity.
    + apply Sh. exact Hj.
    + apply Sh. exact Hj.
  - destruct j as [|j]; [simpl in C; lra|]. rewrite S_INR in *.
    apply (continuous_glue _ (fun t => P j (t - (z0 + INR j * h))) (fun t => P (S j) (t - (z0 + (INR j + 1) * h))) z h Hh).
    + intros s [S1 S2]. apply cellwise_in; [exact Hh|lra].
    + intros s [S1 S2]. rewrite (cellwise_in z0 h P s (S j) Hh) by (rewrite S_INR; lra). rewrite S_INR. reflexivity.
    + replace (z - (z0 + INR j * h)) with h by lra. replace (z - (z0 + (INR j + 1) * h)) with 0 by lra. apply HP. exact Hj.
    + apply Sh. lia.
    + apply Sh. exact Hj.
Qed.

(** ** Rows of the table of quintic polynomials *)
Lemma quintic_table_length z0 h N derivs cubic : length (quintic_spline_coefficients (samples z0 h N) derivs cubic) = (N - 1)%nat.
Proof. unfold quintic_spline_coefficients, arange. rewrite map_length, seq_length, samples_length. reflexivity. Qed.
Lemma quintic_table_get z0 h N derivs cubic j : (S j < N)%nat ->
  nth_error (quintic_spline_coefficients (samples z0 h N) derivs cubic) j = Some (quintic_row (samples z0 h N) derivs cubic j).
Proof.
  intros H. unfold quintic_spline_coefficients, arange. rewrite samples_length. rewrite nth_error_map.
  rewrite (nth_error_nth' _ 0%nat) by (rewrite seq_length; lia). rewrite seq_nth by lia. reflexivity.
Qed.
Lemma quintic_row_ends z0 h N derivs cubic i j : h <> 0 -> (S j < N)%nat -> (i <= 6)%nat ->
  let c := quintic_row (samples z0 h N) derivs cubic j i in
  poly_at c 0 = derivs i j /\ poly_at' c 0 = derivs (S i) j /\ poly_at'' c 0 = derivs (S (S i)) j /\
  poly_at c h = derivs i (S j) /\ poly_at' c h = derivs (S i) (S j) /\ poly_at'' c h = derivs (S (S i)) (S j).
Proof.
  intros Hh Hj Hi. unfold quintic_row. replace (i + 2 <? 9)%nat with true by (symmetry; apply Nat.ltb_lt; lia). cbv zeta.
  rewrite !samples_nth by lia. rewrite S_INR. replace (z0 + (INR j + 1) * h - (z0 + INR j * h)) with h by ring. apply hermite_ends. exact Hh.
Qed.
Lemma potential_series_axis d : potential_series d (norm_2d 0 0) = d 0%nat.
Proof. rewrite potential_series_xy. field. Qed.
Lemma field_series_axis d z : field_series d (V3 0 0 z) = V3 0 0 (- d 1%nat).
Proof. rewrite field_series_xy. cbn [vx vy]. f_equal; field. Qed.
Lemma rotate_norm c s x y : c ^ 2 + s ^ 2 = 1 -> norm_2d (c * x - s * y) (s * x + c * y) = norm_2d x y.
Proof.
  intros H. unfold norm_2d. f_equal. replace ((c * x - s * y) * (c * x - s * y) + (s * x + c * y) * (s * x + c * y)) with ((c ^ 2 + s ^ 2) * (x * x + y * y)) by ring.
  rewrite H. ring.
Qed.
