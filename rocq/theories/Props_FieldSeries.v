(** Property theorems about the accuracy of the field of axial fields: C82, C83. *)
From Coq Require Import Reals ZArith Lra Lia Psatz.
From Coquelicot Require Import Coquelicot.
From Verif Require Import Base BaseFacts Vec GeomModel OutwardFacts FieldModel FieldFacts SeriesModel SeriesFacts InterpFacts Field3DFacts DispatchModel
  EllipticSpec EllipticFacts RingModel RingFacts LoopFacts LegendreFacts RadialSeriesFacts RingSeriesFacts GegenbauerFacts FieldSeriesFacts CoulombFacts AxialModel AxialErrorFacts
  Props_Series Props_Elliptic Props_AxialError Props_RadialSeries.
Local Open Scope R_scope.

(** ** C82 Accuracy of the radial series of the field *)
(** The field of charged rings by Coulomb's law and of current loops by the law of Biot and Savart, each an integral over the circle
    of every quadrature point. *)
Definition sum_turns (law : vec3 -> R -> R -> R -> vec3) (c : charges) (p : vec3) : vec3 :=
  V3 (evaluate (fun q => vx (integral_turn (law p (vx q) (vz q)))) c) (evaluate (fun q => vy (integral_turn (law p (vx q) (vz q)))) c)
     (evaluate (fun q => vz (integral_turn (law p (vx q) (vz q)))) c).
Definition ring_field : charges -> vec3 -> vec3 := sum_turns coulomb.
Definition loop_field : charges -> vec3 -> vec3 := sum_turns biot_savart.
(** Coulomb's law: the force between the points falls with the square of their distance, along the line that joins them.
    [field_truncation rho D] = (rho/D)^8 (D+rho)^3 / (D^2 (D-rho)^3); [near_vec a b e]: all components of a and b differ at most by e. *)
Lemma coulomb_is_gradient p r z phi : p <> circle r z phi -> gradient (fun x => r * potential_3d_point x (circle r z phi)) p (vneg (coulomb p r z phi)).
Proof.
  intros N d. pose proof (norm_sub_pos p (circle r z phi) N) as P. pose proof PI_RGT_0 as Hpi. set (q := circle r z phi) in *. destruct q as [qx qy qz] eqn:Eq. destruct p as [x y zz]. destruct d as [dx dy dz].
  unfold coulomb. fold q. rewrite Eq. unfold potential_3d_point, norm, vsub, vadd, vscale, dot, vneg in *. cbn [vx vy vz] in *.
  set (L := (x - qx) * (x - qx) + (y - qy) * (y - qy) + (zz - qz) * (zz - qz)) in *. assert (PL : 0 < L) by (destruct (Rle_or_lt L 0) as [B|B]; [rewrite (sqrt_neg_0 _ B) in P; lra|exact B]).
  auto_derive.
  - replace ((qx + - (x + 0 * dx)) * (qx + - (x + 0 * dx)) + (qy + - (y + 0 * dy)) * (qy + - (y + 0 * dy)) + (qz + - (zz + 0 * dz)) * (qz + - (zz + 0 * dz))) with L by (unfold L; ring).
    repeat split; try lra. apply Rgt_not_eq. apply Rmult_lt_0_compat; lra.
  - replace ((qx + - (x + 0 * dx)) * (qx + - (x + 0 * dx)) + (qy + - (y + 0 * dy)) * (qy + - (y + 0 * dy)) + (qz + - (zz + 0 * dz)) * (qz + - (zz + 0 * dz))) with L by (unfold L; ring).
    clearbody L. field. lra.
Qed.
Lemma field_truncation_mono rho D D' : 0 <= rho < D -> D <= D' -> field_truncation rho D' <= field_truncation rho D.
Proof.
  intros H HD. unfold field_truncation.
  replace ((rho / D') ^ 8 * (D' + rho) ^ 3 / (D' ^ 2 * (D' - rho) ^ 3)) with ((rho / D') ^ 8 * (((D' + rho) / (D' - rho)) ^ 3 * (/ D') ^ 2)) by (field; split; lra).
  replace ((rho / D) ^ 8 * (D + rho) ^ 3 / (D ^ 2 * (D - rho) ^ 3)) with ((rho / D) ^ 8 * (((D + rho) / (D - rho)) ^ 3 * (/ D) ^ 2)) by (field; split; lra).
  assert (I : 0 < / D' <= / D) by (split; [apply Rinv_0_lt_compat; lra|apply Rinv_le_contravar; lra]).
  assert (Q : 0 <= (D' + rho) / (D' - rho) <= (D + rho) / (D - rho)).
  { split; [apply Rmult_le_pos; [lra|apply Rlt_le, Rinv_0_lt_compat; lra]|]. apply (Rmult_le_reg_r ((D - rho) * (D' - rho))); [apply Rmult_lt_0_compat; lra|].
    replace ((D' + rho) / (D' - rho) * ((D - rho) * (D' - rho))) with ((D' + rho) * (D - rho)) by (field; lra). replace ((D + rho) / (D - rho) * ((D - rho) * (D' - rho))) with ((D + rho) * (D' - rho)) by (field; lra). nra. }
  apply Rmult_le_compat.
  - apply pow_le, Rmult_le_pos; lra.
  - apply Rmult_le_pos; [apply pow_le; lra|apply pow2_ge_0].
  - apply pow_incr. unfold Rdiv. split; [apply Rmult_le_pos; lra|apply Rmult_le_compat_l; lra].
  - apply Rmult_le_compat; [apply pow_le; lra|apply pow2_ge_0|apply pow_incr; lra|apply pow_incr; lra].
Qed.
Lemma field_truncation_nonneg rho D : 0 <= rho < D -> 0 <= field_truncation rho D.
Proof.
  intros H. unfold field_truncation. apply Rmult_le_pos; [apply Rmult_le_pos|apply Rlt_le, Rinv_0_lt_compat, Rmult_lt_0_compat; apply pow_lt; lra].
  - apply pow_le, Rmult_le_pos; [lra|apply Rlt_le, Rinv_0_lt_compat; lra].
  - apply pow_le; lra.
Qed.
Lemma evaluate_field (d : vec3 -> nat -> R) c p :
  V3 (evaluate (fun q => vx (field_series (d q) p)) c) (evaluate (fun q => vy (field_series (d q) p)) c) (evaluate (fun q => vz (field_series (d q) p)) c) = field_series (fun n => evaluate (fun q => d q n) c) p.
Proof.
  assert (L : forall K1 K2 k, evaluate (fun q => K1 q + k * K2 q) c = evaluate K1 c + k * evaluate K2 c).
  { intros K1 K2 k. unfold evaluate, source_sum. rewrite <- (Rsum_scal k), <- Rsum_plus. apply Rsum_ext. intros x _.
    replace (k * (fst x * Rsum (map (fun jp => fst jp * K2 (snd jp)) (snd x)))) with (fst x * (k * Rsum (map (fun jp => fst jp * K2 (snd jp)) (snd x)))) by ring.
    rewrite <- Rmult_plus_distr_l. f_equal. rewrite <- (Rsum_scal k), <- Rsum_plus. apply Rsum_ext. intros jp _. ring. }
  assert (E : forall K1 K2, (forall q, K1 q = K2 q) -> evaluate K1 c = evaluate K2 c) by (intros K1 K2 H; apply evaluate_ext; intros; apply H).
  set (rho := norm_2d (vx p) (vy p)).
  assert (Lr : forall k, evaluate (fun q => k * fs_r (d q) rho) c = k * fs_r (fun n => evaluate (fun q => d q n) c) rho).
  { intros k. rewrite (E _ (fun q => ((0 * d q 0%nat + k * 0.5 * d q 2%nat) + (- (k * 0.5 * (rho ^ 2 / 8))) * d q 4%nat + (k * 0.5 * (rho ^ 4 / 192)) * d q 6%nat) + (- (k * 0.5 * (rho ^ 6 / 9216))) * d q 8%nat)) by (intros q; unfold fs_r; ring).
    rewrite !L. rewrite (E (fun q => 0 * d q 0%nat) (fun q => d q 0%nat + -1 * d q 0%nat)) by (intros; ring). rewrite L. unfold fs_r. ring. }
  assert (Lz : evaluate (fun q => fs_z (d q) rho) c = fs_z (fun n => evaluate (fun q => d q n) c) rho).
  { rewrite (E _ (fun q => ((0 * d q 0%nat + (-1) * d q 1%nat) + (rho ^ 2 / 4) * d q 3%nat + (- (rho ^ 4 / 64)) * d q 5%nat) + (rho ^ 6 / 2304) * d q 7%nat)) by (intros q; unfold fs_z; ring).
    rewrite !L. rewrite (E (fun q => 0 * d q 0%nat) (fun q => d q 0%nat + -1 * d q 0%nat)) by (intros; ring). rewrite L. unfold fs_z. ring. }
  rewrite field_series_parts. fold rho. f_equal; [apply Lr|apply Lr|apply Lz].
Qed.
Lemma sum_turns_error law (d : vec3 -> nat -> R) (B : vec3 -> R) c p :
  (forall x jp, In x (q_items c) -> In jp (snd x) -> near_vec (integral_turn (law p (vx (snd jp)) (vz (snd jp)))) (field_series (d (snd jp)) p) (B (snd jp))) ->
  near_vec (sum_turns law c p) (field_series (fun n => evaluate (fun q => d q n) c) p) (weight B c).
Proof.
  intros H. rewrite <- evaluate_field. unfold sum_turns, near_vec. cbn [vx vy vz].
  repeat split; (rewrite evaluate_minus; apply evaluate_abs; intros x Hx jp Hjp; apply (H x jp Hx Hjp)).
Qed.
Lemma field_series_ext d d' p : (forall n, (0 < n < 9)%nat -> d n = d' n) -> field_series d p = field_series d' p.
Proof. intros H. rewrite !field_series_parts. rewrite (fs_r_ext d d') by exact H. rewrite (fs_z_ext d d') by exact H. reflexivity. Qed.
Lemma rings_error c p : inside_rings c p ->
  near_vec (ring_field c p) (field_series (fun n => evaluate (fun q => vx q / 2 * ring_D (vx q) n (vz p - vz q)) c) p) (weight (fun q => vx q / 2 * (45 * field_truncation (norm_2d (vx p) (vy p)) (ring_distance (vz p) q))) c).
Proof.
  intros H. apply (sum_turns_error coulomb (fun q n => vx q / 2 * ring_D (vx q) n (vz p - vz q))). intros x jp Hx Hjp. destruct (H x jp Hx Hjp) as [Hr Hd]. rewrite ring_distance_norm in *. apply ring_field_error; assumption.
Qed.
Lemma loops_error c p : inside_rings c p ->
  near_vec (loop_field c p) (field_series (fun n => evaluate (fun q => current_D (vx q) n (vz p - vz q)) c) p) (weight (fun q => vx q / 2 * (81 * field_truncation (norm_2d (vx p) (vy p)) (ring_distance (vz p) q))) c).
Proof.
  intros H. apply (sum_turns_error biot_savart (fun q n => current_D (vx q) n (vz p - vz q))). intros x jp Hx Hjp. destruct (H x jp Hx Hjp) as [Hr Hd]. rewrite ring_distance_norm in *. apply loop_field_error; assumption.
Qed.
(** Given the exact derivatives of the axial potential of the rings, the series of the code (radial.c:345-382) has an error of eighth order. *)
Theorem C82_rings c p d : inside_rings c p ->
  (forall n, (1 <= n <= 8)%nat -> is_derive_n (fun s => evaluate (fun q => vx q / (2 * sqrt ((s - vz q) ^ 2 + vx q ^ 2))) c) n (vz p) (d n)) ->
  near_vec (ring_field c p) (field_series d p)
    (Rsum (map (fun x => Rabs (fst x) * Rsum (map (fun jp => Rabs (fst jp) * (vx (snd jp) / 2 * (45 * field_truncation (norm_2d (vx p) (vy p)) (ring_distance (vz p) (snd jp))))) (snd x))) (q_items c))).
Proof.
  intros H Hd. assert (Ho : off_axis c) by (intros x Hx jp Hjp; destruct (H x jp Hx Hjp); lra).
  rewrite (field_series_ext d (fun n => evaluate (fun q => vx q / 2 * ring_D (vx q) n (vz p - vz q)) c)); [exact (rings_error c p H)|].
  intros n Hn. assert (E : is_derive_n (fun s => evaluate (fun q => vx q / (2 * sqrt ((s - vz q) ^ 2 + vx q ^ 2))) c) n (vz p) (evaluate (fun q => vx q / 2 * ring_D (vx q) n (vz p - vz q)) c)).
  { apply (chain_is_derive_n (fun n s => evaluate (fun q => vx q / 2 * ring_D (vx q) n (s - vz q)) c)).
    - apply (evaluate_chain (fun n s q => vx q / 2 * ring_D (vx q) n (s - vz q))); [|exact Ho]. intros q Hq. apply (ring_chain (vx q) (vz q) Hq).
    - intros s. apply evaluate_ext. intros x Hx jp Hjp. apply ring_0. apply (Ho x Hx jp Hjp). }
  specialize (Hd n ltac:(lia)). destruct n as [|n]; [lia|].
  transitivity (Derive_n (fun s => evaluate (fun q => vx q / (2 * sqrt ((s - vz q) ^ 2 + vx q ^ 2))) c) (S n) (vz p)); [symmetry|]; apply is_derive_n_unique; assumption.
Qed.
Print Assumptions C82_rings.
(** The same for current loops, with the derivatives of their scalar potential on the axis. *)
Theorem C82_loops c p d : inside_rings c p ->
  (forall n, (1 <= n <= 8)%nat -> is_derive_n (fun s => evaluate (fun q => - (s - vz q) / (2 * sqrt ((s - vz q) ^ 2 + vx q ^ 2))) c) n (vz p) (d n)) ->
  near_vec (loop_field c p) (field_series d p)
    (Rsum (map (fun x => Rabs (fst x) * Rsum (map (fun jp => Rabs (fst jp) * (vx (snd jp) / 2 * (81 * field_truncation (norm_2d (vx p) (vy p)) (ring_distance (vz p) (snd jp))))) (snd x))) (q_items c))).
Proof.
  intros H Hd. assert (Ho : off_axis c) by (intros x Hx jp Hjp; destruct (H x jp Hx Hjp); lra).
  rewrite (field_series_ext d (fun n => evaluate (fun q => current_D (vx q) n (vz p - vz q)) c)); [exact (loops_error c p H)|].
  intros n Hn. assert (E : is_derive_n (fun s => evaluate (fun q => - (s - vz q) / (2 * sqrt ((s - vz q) ^ 2 + vx q ^ 2))) c) n (vz p) (evaluate (fun q => current_D (vx q) n (vz p - vz q)) c)).
  { apply (chain_is_derive_n (fun n s => evaluate (fun q => current_D (vx q) n (s - vz q)) c)).
    - apply (evaluate_chain (fun n s q => current_D (vx q) n (s - vz q))); [|exact Ho]. intros q Hq. apply (current_chain (vx q) (vz q) Hq).
    - intros s. apply evaluate_ext. intros x Hx jp Hjp. apply current_0. }
  specialize (Hd n ltac:(lia)). destruct n as [|n]; [lia|].
  transitivity (Derive_n (fun s => evaluate (fun q => - (s - vz q) / (2 * sqrt ((s - vz q) ^ 2 + vx q ^ 2))) c) (S n) (vz p)); [symmetry|]; apply is_derive_n_unique; assumption.
Qed.
Print Assumptions C82_loops.
(** The field of the rings is what a radial field reports, up to the approximation of the elliptic integrals; for loops this is C57. *)
Theorem C82_radial c p : off_rings c p -> (MIN_DISTANCE_AXIS <= norm_2d (vx p) (vy p) \/ vx p = 0 /\ vy p = 0) -> field_radial_of exact_km1 exact_em1 p c = ring_field c p.
Proof.
  intros O Hp. set (br := fun q => - dr1_potential_radial_ring_of exact_km1 exact_em1 (norm_2d (vx p) (vy p)) (vz p) (vx q) (vz q)). set (bz := fun q => - dz1_potential_radial_ring_of exact_em1 (norm_2d (vx p) (vy p)) (vz p) (vx q) (vz q)).
  assert (G : forall x jp, In x (q_items c) -> In jp (snd x) -> from_cylinder p (br (snd jp)) (bz (snd jp)) = integral_turn (coulomb p (vx (snd jp)) (vz (snd jp)))).
  { intros x jp Hx Hj. destruct (O x jp Hx Hj) as (Ha & Hoff). apply ring_is_coulomb; assumption. }
  assert (S : forall k f, evaluate (fun q => k * f q) c = k * evaluate f c).
  { intros k f. unfold evaluate, source_sum. rewrite <- Rsum_scal. apply Rsum_ext. intros x _. rewrite <- Rmult_assoc, (Rmult_comm k), Rmult_assoc. f_equal. rewrite <- Rsum_scal. apply Rsum_ext. intros jp _. ring. }
  assert (Ng : forall f, - evaluate f c = evaluate (fun q => - f q) c).
  { intros f. transitivity (-1 * evaluate f c); [ring|]. rewrite <- S. apply evaluate_ext. intros. ring. }
  unfold field_radial_of. rewrite !Ng. fold br bz. unfold ring_field, sum_turns.
  rewrite <- (evaluate_ext (fun q => vx (from_cylinder p (br q) (bz q))) (fun q => vx (integral_turn (coulomb p (vx q) (vz q))))), <- (evaluate_ext (fun q => vy (from_cylinder p (br q) (bz q))) (fun q => vy (integral_turn (coulomb p (vx q) (vz q))))),
    <- (evaluate_ext (fun q => vz (from_cylinder p (br q) (bz q))) (fun q => vz (integral_turn (coulomb p (vx q) (vz q))))) by (intros x Hx jp Hj; rewrite (G x jp Hx Hj); reflexivity).
  unfold from_cylinder. destruct (Rle_dec MIN_DISTANCE_AXIS (norm_2d (vx p) (vy p))); cbn [vx vy vz]; f_equal.
  - symmetry. apply (S _ br).
  - symmetry. apply (S _ br).
  - symmetry. rewrite (evaluate_ext (fun _ => 0) (fun q => 0 * 0)) by (intros; ring). rewrite (S 0 (fun _ => 0)). ring.
  - symmetry. rewrite (evaluate_ext (fun _ => 0) (fun q => 0 * 0)) by (intros; ring). rewrite (S 0 (fun _ => 0)). ring.
Qed.
Print Assumptions C82_radial.
Example C82_nonvacuous : inside_rings (mkcharges LINE_RULE [(3, [(1, V3 2 0 0); (2, V3 2 0 (1/2))])]) (V3 1 0 0) /\ field_truncation 1 2 = 27 / 1024.
Proof. split; [apply C80_nonvacuous|]. unfold field_truncation. field. Qed.

(** ** C83 Accuracy of the field of FieldRadialAxial off the axis *)
Lemma fact_7 : INR (fact (1 + 6)) = 5040. Proof. cbn [Nat.add]. rewrite !fact_S. change (fact 0) with 1%nat. cbn [INR]. ring. Qed.
Lemma fact_8 : INR (fact (2 + 6)) = 40320. Proof. cbn [Nat.add]. rewrite !fact_S. change (fact 0) with 1%nat. cbn [INR]. ring. Qed.
Lemma fact_9 : INR (fact (3 + 6)) = 362880. Proof. cbn [Nat.add]. rewrite !fact_S. change (fact 0) with 1%nat. cbn [INR]. ring. Qed.
Lemma fact_11 : INR (fact (5 + 6)) = 39916800. Proof. cbn [Nat.add]. rewrite !fact_S. change (fact 0) with 1%nat. cbn [INR]. ring. Qed.
(** the field of the rings and loops of a radial field *)
Definition source_field (elec : bool) (f : bem) (p : vec3) : vec3 := if elec then ring_field (b_elec f) p else vadd (ring_field (b_mag f) p) (loop_field (b_cur f) p).
(** all rings and loops have a positive radius and are at least [D] away from the axis between [a] and [b] *)
Definition outside (a b D : R) (cs : list charges) : Prop :=
  forall c x jp, In c cs -> In x (q_items c) -> In jp (snd x) -> 0 < vx (snd jp) /\ forall s, a <= s <= b -> D <= ring_distance s (snd jp).
Lemma weight_truncation k rho D z c (Hk : 0 <= k) : 0 <= rho < D -> (forall x jp, In x (q_items c) -> In jp (snd x) -> 0 < vx (snd jp) /\ D <= ring_distance z (snd jp)) ->
  weight (fun q => vx q / 2 * (k * field_truncation rho (ring_distance z q))) c <= k / 2 * field_truncation rho D * weight (fun q => Rabs (vx q)) c.
Proof.
  intros Hrho H. rewrite <- weight_scale. apply weight_mono. intros x Hx jp Hjp. destruct (H x jp Hx Hjp) as [Hr Hd]. rewrite Rabs_pos_eq by lra.
  pose proof (field_truncation_mono rho D (ring_distance z (snd jp)) Hrho Hd) as M.
  replace (k / 2 * field_truncation rho D * vx (snd jp)) with (vx (snd jp) / 2 * (k * field_truncation rho D)) by field. apply Rmult_le_compat_l; [lra|]. apply Rmult_le_compat_l; assumption.
Qed.
Lemma field_series_plus d d' p : vadd (field_series d p) (field_series d' p) = field_series (fun n => d n + d' n) p.
Proof. rewrite !field_series_parts. unfold vadd. cbn [vx vy vz]. unfold fs_r, fs_z. f_equal; ring. Qed.
Lemma near_vec_plus a b a' b' e e' : near_vec a b e -> near_vec a' b' e' -> near_vec (vadd a a') (vadd b b') (e + e').
Proof.
  intros (X & Y & Z) (X' & Y' & Z'). unfold near_vec, vadd. cbn [vx vy vz].
  repeat split; (match goal with |- Rabs (?u + ?v - (?s + ?t)) <= _ => replace (u + v - (s + t)) with ((u - s) + (v - t)) by ring end; eapply Rle_trans; [apply Rabs_triang|lra]).
Qed.
Lemma near_vec_mono a b e e' : e <= e' -> near_vec a b e -> near_vec a b e'.
Proof. intros H (X & Y & Z). repeat split; lra. Qed.
(** the series with exact derivatives *)
Definition field_constant (elec : bool) : R := if elec then 45 else 81.
Lemma source_error elec f p zmin zmax D : outside zmin zmax D (sources elec f) -> zmin <= vz p <= zmax -> norm_2d (vx p) (vy p) < D ->
  near_vec (source_field elec f p) (field_series (fun n => axial_chain elec f n (vz p)) p) (field_constant elec / 2 * field_truncation (norm_2d (vx p) (vy p)) D * total_strength (sources elec f)).
Proof.
  intros H Hz Hlt. pose proof (norm_2d_nonneg (vx p) (vy p)) as P0.
  assert (G : forall c, In c (sources elec f) -> inside_rings c p /\ (forall x jp, In x (q_items c) -> In jp (snd x) -> 0 < vx (snd jp) /\ D <= ring_distance (vz p) (snd jp))).
  { intros c Hc. split; intros x jp Hx Hjp; destruct (H c x jp Hc Hx Hjp) as [Hr Hd]; specialize (Hd (vz p) Hz); split; try lra. }
  rewrite <- strength_total. destruct elec; cbn [sources source_field axial_chain strength field_constant] in *.
  - destruct (G (b_elec f) ltac:(left; reflexivity)) as [Hi Hr]. eapply near_vec_mono; [|exact (rings_error _ _ Hi)]. eapply Rle_trans; [apply (weight_truncation 45 _ D); [lra|lra|exact Hr]|]. right. reflexivity.
  - destruct (G (b_mag f) ltac:(left; reflexivity)) as [Hi Hr]. destruct (G (b_cur f) ltac:(right; left; reflexivity)) as [Hi' Hr'].
    unfold mag_chain. rewrite <- field_series_plus. eapply near_vec_mono; [|exact (near_vec_plus _ _ _ _ _ _ (rings_error _ _ Hi) (loops_error _ _ Hi'))].
    pose proof (weight_truncation 45 _ D (vz p) (b_mag f) ltac:(lra) (conj P0 Hlt) Hr) as W1. pose proof (weight_truncation 81 _ D (vz p) (b_cur f) ltac:(lra) (conj P0 Hlt) Hr') as W2.
    pose proof (field_truncation_nonneg _ D (conj P0 Hlt)) as PT. pose proof (weight_nonneg (fun q => Rabs (vx q)) (b_mag f) ltac:(intros; apply Rabs_pos)) as PW. nra.
Qed.
(** For every field built from a radial field, all of whose rings and loops (for elec = true the charged rings of electrodes and
    dielectrics; for elec = false those of the magnetisation and the current loops) have positive radius and are at least [D] away from
    the axis between zmin and zmax, and every point closer to the axis than [D]: the components of the reported field differ from
    those of the field of the rings and loops at most by the interpolation error, the truncation error of the series, and the errors
    eps7, eps8 of the cubic splines that interpolate the seventh and the eighth derivative, suppressed by powers of rho. *)
Theorem C83_field elec spline f zmin zmax N A p D eps7 eps8 : b_class f = FieldRadialBEM -> zmin < zmax -> (2 <= number_of_samples f N)%nat ->
  field_radial_axial spline f zmin zmax N = Ok A -> zmin <= vz p < zmax -> outside zmin zmax D (sources elec f) ->
  let rho := norm_2d (vx p) (vy p) in let h := (zmax - zmin) / INR (number_of_samples f N - 1) in let S := total_strength (sources elec f) in let t := rho / D in
  let truncated := (if elec then 45 else 81) / 2 * S * field_truncation rho D in
  rho < D ->
  (forall d, series_derivs (a_z A) (if elec then a_elec A else a_mag A) (vz p) = Ok (Some d) ->
     Rabs (d 7%nat - Derive_n (true_axial_potential elec f) 7 (vz p)) <= eps7 /\ Rabs (d 8%nat - Derive_n (true_axial_potential elec f) 8 (vz p)) <= eps8) ->
  exists v, axial_field elec A p = Ok v /\
    Rabs (vx v - vx (source_field elec f p)) <= S / (2 * D ^ 2) * (h / (2 * D)) ^ 6 * (28 * t + 315 * t ^ 3 + 3465 / 2 * t ^ 5) + truncated + eps8 * rho ^ 7 / 18432 /\
    Rabs (vy v - vy (source_field elec f p)) <= S / (2 * D ^ 2) * (h / (2 * D)) ^ 6 * (28 * t + 315 * t ^ 3 + 3465 / 2 * t ^ 5) + truncated + eps8 * rho ^ 7 / 18432 /\
    Rabs (vz v - vz (source_field elec f p)) <= S / (2 * D ^ 2) * (h / (2 * D)) ^ 6 * (7 + 126 * t ^ 2 + 3465 / 4 * t ^ 4) + truncated + eps7 * rho ^ 6 / 2304.
Proof.
  intros Hc Hab HN HA Hz Haw rho h S t truncated Hlt Heps. assert (Hrho : 0 <= rho) by apply norm_2d_nonneg. assert (HD : 0 < D) by lra.
  assert (Aw : away zmin zmax D (sources elec f)).
  { intros c x jp Hc' Hx Hjp. destruct (Haw c x jp Hc' Hx Hjp) as [Hr Hd]. split; [lra|]. exact Hd. }
  destruct (away_sources elec zmin zmax D f Aw) as [Ho Ha].
  destruct (axial_accuracy spline f zmin zmax N A elec (vz p) D Hc Hab HN HA Hz Ho HD Ha) as (d & Ed & Err & _). fold (range_step zmin zmax (number_of_samples f N)) in h. fold h in Err.
  exists (field_series d p). unfold axial_field, field_radial_derivs. unfold axial_table in Ed. rewrite Ed. cbn [bind]. split; [reflexivity|].
  pose proof (source_error elec f p zmin zmax D Haw ltac:(lra) Hlt) as TE. fold rho S in TE.
  assert (EC : field_constant elec / 2 * field_truncation rho D * S = truncated) by (unfold truncated, field_constant; ring). rewrite EC in TE. clear EC. clearbody truncated.
  assert (D7 : Derive_n (true_axial_potential elec f) 7 (vz p) = axial_chain elec f 7 (vz p)) by (apply is_derive_n_unique; apply (chain_n elec f 7 (vz p) Ho)).
  assert (D8 : Derive_n (true_axial_potential elec f) 8 (vz p) = axial_chain elec f 8 (vz p)) by (apply is_derive_n_unique; apply (chain_n elec f 8 (vz p) Ho)).
  destruct (Heps d Ed) as [E7 E8]. rewrite D7 in E7. rewrite D8 in E8. clear Heps D7 D8.
  pose proof (Err 1%nat ltac:(lia)) as E1. pose proof (Err 2%nat ltac:(lia)) as E2. pose proof (Err 3%nat ltac:(lia)) as E3. pose proof (Err 4%nat ltac:(lia)) as E4. pose proof (Err 5%nat ltac:(lia)) as E5. pose proof (Err 6%nat ltac:(lia)) as E6. clear Err.
  unfold interpolation_error in E1, E2, E3, E4, E5, E6. rewrite strength_total in E1, E2, E3, E4, E5, E6. fold S in E1, E2, E3, E4, E5, E6.
  pose proof fact_10 as F10. pose proof fact_12 as F12. change 10%nat with (4 + 6)%nat in F10. change 12%nat with (6 + 6)%nat in F12.
  rewrite fact_7 in E1. rewrite fact_8 in E2. rewrite fact_9 in E3. rewrite F10 in E4. rewrite fact_11 in E5. rewrite F12 in E6. cbn [Nat.add] in E1, E2, E3, E4, E5, E6. clear F10 F12.
  set (g := (h / (2 * D)) ^ 6) in *. clearbody S h.
  set (c := fun n => axial_chain elec f n (vz p)) in *.
  change (axial_chain elec f 1 (vz p)) with (c 1%nat) in *. change (axial_chain elec f 2 (vz p)) with (c 2%nat) in *. change (axial_chain elec f 3 (vz p)) with (c 3%nat) in *. change (axial_chain elec f 4 (vz p)) with (c 4%nat) in *.
  change (axial_chain elec f 5 (vz p)) with (c 5%nat) in *. change (axial_chain elec f 6 (vz p)) with (c 6%nat) in *. change (axial_chain elec f 7 (vz p)) with (c 7%nat) in *. change (axial_chain elec f 8 (vz p)) with (c 8%nat) in *. clearbody c.
  assert (Sc : forall k x y, 0 <= k -> Rabs x <= y -> - (k * y) <= k * x <= k * y) by (intros k x y Hk Hx; apply Rabs_le_between in Hx; split; nra).
  assert (P2 : 0 <= rho ^ 2) by (apply pow_le; exact Hrho). assert (P3 : 0 <= rho ^ 3) by (apply pow_le; exact Hrho). assert (P4 : 0 <= rho ^ 4) by (apply pow_le; exact Hrho). assert (P5 : 0 <= rho ^ 5) by (apply pow_le; exact Hrho). assert (P6 : 0 <= rho ^ 6) by (apply pow_le; exact Hrho). assert (P7 : 0 <= rho ^ 7) by (apply pow_le; exact Hrho).
  assert (BR : Rabs (rho * fs_r d rho - rho * fs_r c rho) <= S / (2 * D ^ 2) * g * (28 * t + 315 * t ^ 3 + 3465 / 2 * t ^ 5) + eps8 * rho ^ 7 / 18432).
  { assert (Split : rho * fs_r d rho - rho * fs_r c rho = rho / 2 * (d 2%nat - c 2%nat) - rho ^ 3 / 16 * (d 4%nat - c 4%nat) + rho ^ 5 / 384 * (d 6%nat - c 6%nat) - rho ^ 7 / 18432 * (d 8%nat - c 8%nat)) by (unfold fs_r; replace 0.5 with (/ 2) by lra; field).
    pose proof (Sc (rho / 2) _ _ ltac:(lra) E2) as Q2. pose proof (Sc (rho ^ 3 / 16) _ _ ltac:(lra) E4) as Q4. pose proof (Sc (rho ^ 5 / 384) _ _ ltac:(lra) E6) as Q6. pose proof (Sc (rho ^ 7 / 18432) _ _ ltac:(lra) E8) as Q8.
    assert (Sum : S / (2 * D ^ 2) * g * (28 * t + 315 * t ^ 3 + 3465 / 2 * t ^ 5) = rho / 2 * (S / (2 * D ^ 3) * (40320 / 720) * g) + rho ^ 3 / 16 * (S / (2 * D ^ 5) * (3628800 / 720) * g) + rho ^ 5 / 384 * (S / (2 * D ^ 7) * (479001600 / 720) * g)).
    { unfold t. clearbody g rho. field. lra. }
    rewrite Sum, Split. apply Rabs_le. clearbody g. unfold Rdiv in *. split; lra. }
  assert (BZ : Rabs (fs_z d rho - fs_z c rho) <= S / (2 * D ^ 2) * g * (7 + 126 * t ^ 2 + 3465 / 4 * t ^ 4) + eps7 * rho ^ 6 / 2304).
  { assert (Split : fs_z d rho - fs_z c rho = - 1 * (d 1%nat - c 1%nat) + rho ^ 2 / 4 * (d 3%nat - c 3%nat) - rho ^ 4 / 64 * (d 5%nat - c 5%nat) + rho ^ 6 / 2304 * (d 7%nat - c 7%nat)) by (unfold fs_z; field).
    pose proof (Sc 1 _ _ ltac:(lra) E1) as Q1. pose proof (Sc (rho ^ 2 / 4) _ _ ltac:(lra) E3) as Q3. pose proof (Sc (rho ^ 4 / 64) _ _ ltac:(lra) E5) as Q5. pose proof (Sc (rho ^ 6 / 2304) _ _ ltac:(lra) E7) as Q7.
    assert (Sum : S / (2 * D ^ 2) * g * (7 + 126 * t ^ 2 + 3465 / 4 * t ^ 4) = 1 * (S / (2 * D ^ 2) * (5040 / 720) * g) + rho ^ 2 / 4 * (S / (2 * D ^ 4) * (362880 / 720) * g) + rho ^ 4 / 64 * (S / (2 * D ^ 6) * (39916800 / 720) * g)).
    { unfold t. clearbody g rho. field. lra. }
    rewrite Sum, Split. apply Rabs_le. clearbody g. unfold Rdiv in *. split; lra. }
  destruct TE as (TX & TY & TZ). rewrite field_series_parts in TX, TY, TZ. rewrite field_series_parts. fold rho in TX, TY, TZ |- *. cbn [vx vy vz] in *.
  assert (Tri : forall a b c e1 e2, Rabs (a - b) <= e1 -> Rabs (b - c) <= e2 -> Rabs (a - c) <= e1 + e2) by (intros a b c' e1 e2 H1 H2; apply Rabs_le_between in H1; apply Rabs_le_between in H2; apply Rabs_le; lra).
  destruct (polar (vx p) (vy p)) as (psi & X1 & Y1). fold rho in X1, Y1.
  assert (Ax : Rabs (vx p * fs_r d rho - vx p * fs_r c rho) <= S / (2 * D ^ 2) * g * (28 * t + 315 * t ^ 3 + 3465 / 2 * t ^ 5) + eps8 * rho ^ 7 / 18432).
  { replace (vx p * fs_r d rho) with (cos psi * (rho * fs_r d rho)) by (rewrite X1; ring). replace (vx p * fs_r c rho) with (cos psi * (rho * fs_r c rho)) by (rewrite X1; ring). apply angle_error; [apply Rabs_le, COS_bound|exact BR]. }
  assert (Ay : Rabs (vy p * fs_r d rho - vy p * fs_r c rho) <= S / (2 * D ^ 2) * g * (28 * t + 315 * t ^ 3 + 3465 / 2 * t ^ 5) + eps8 * rho ^ 7 / 18432).
  { replace (vy p * fs_r d rho) with (sin psi * (rho * fs_r d rho)) by (rewrite Y1; ring). replace (vy p * fs_r c rho) with (sin psi * (rho * fs_r c rho)) by (rewrite Y1; ring). apply angle_error; [apply Rabs_le, SIN_bound|exact BR]. }
  rewrite Rabs_minus_sym in TX, TY, TZ.
  pose proof (Tri _ _ _ _ _ Ax TX) as RX. pose proof (Tri _ _ _ _ _ Ay TY) as RY. pose proof (Tri _ _ _ _ _ BZ TZ) as RZ.
  split; [|split]; (eapply Rle_trans; [eassumption|]); right; ring.
Qed.
Print Assumptions C83_field.
Example C83_nonvacuous elec spline : exists A eps7 eps8 v, field_radial_axial spline ex_ring_field (-1) 1 (Some 21%nat) = Ok A /\ outside (-1) 1 2 (sources elec ex_ring_field) /\
  axial_field elec A (V3 1 0 0) = Ok v /\
  Rabs (vz v - vz (source_field elec ex_ring_field (V3 1 0 0))) <=
    total_strength (sources elec ex_ring_field) / (2 * 2 ^ 2) * ((1 - -1) / INR (21 - 1) / (2 * 2)) ^ 6 * (7 + 126 * (1 / 2) ^ 2 + 3465 / 4 * (1 / 2) ^ 4) +
    (if elec then 45 else 81) / 2 * total_strength (sources elec ex_ring_field) * field_truncation 1 2 + eps7 * 1 ^ 6 / 2304 /\ 0 <= eps8.
Proof.
  destruct (C78_nonvacuous spline) as (A & HA & _ & _ & HS & _). exists A.
  destruct (axial_inside spline ex_ring_field (-1) 1 (Some 21%nat) A elec 0 eq_refl ltac:(lra) ltac:(cbn; lia) HA ltac:(lra)) as (j & row & _ & _ & Ed & _). unfold axial_table in Ed.
  assert (Out : outside (-1) 1 2 (sources elec ex_ring_field)).
  { assert (Q : forall s z r, 2 <= r -> 2 <= sqrt ((s - z) ^ 2 + r ^ 2)).
    { intros s z r Hr. rewrite <- (sqrt_Rsqr 2) by lra. apply sqrt_le_1_alt. pose proof (pow2_ge_0 (s - z)). unfold Rsqr. nra. }
    destruct elec.
    - intros c x jp [<-|[]] [<-|[]] [<-|[<-|[]]]; unfold ring_distance; cbn [vx vz snd]; (split; [lra|intros s _; apply Q; lra]).
    - intros c x jp [<-|[<-|[]]]; [intros []|]. intros [<-|[]] [<-|[]]; unfold ring_distance; cbn [vx vz snd]; (split; [lra|intros s _; apply Q; lra]). }
  set (dd := fun n : nat => poly_at (row n) (0 - (-1 + INR j * range_step (-1) 1 (number_of_samples ex_ring_field (Some 21%nat))))) in *.
  assert (n1 : norm_2d 1 0 = 1) by (unfold norm_2d; replace (1 * 1 + 0 * 0) with 1 by ring; exact sqrt_1).
  exists (Rabs (dd 7%nat - Derive_n (true_axial_potential elec ex_ring_field) 7 0)), (Rabs (dd 8%nat - Derive_n (true_axial_potential elec ex_ring_field) 8 0)).
  destruct (C83_field elec spline ex_ring_field (-1) 1 (Some 21%nat) A (V3 1 0 0) 2 (Rabs (dd 7%nat - Derive_n (true_axial_potential elec ex_ring_field) 7 0)) (Rabs (dd 8%nat - Derive_n (true_axial_potential elec ex_ring_field) 8 0))
    eq_refl ltac:(lra) ltac:(cbn; lia) HA) as (v & Hv & _ & _ & Hb).
  - cbn [vz]. lra.
  - exact Out.
  - cbn [vx vy]. rewrite n1. lra.
  - cbn [vz]. intros d Hd. rewrite Ed in Hd. injection Hd as <-. split; right; reflexivity.
  - exists v. cbn [vx vy] in Hb. rewrite n1 in Hb. split; [exact HA|]. split; [exact Out|]. split; [exact Hv|]. split; [exact Hb|apply Rabs_pos].
Qed.
