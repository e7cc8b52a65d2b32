(** Property theorems about elliptic integrals, charged rings and current loops: C51, C56, C57. *)
From Coq Require Import Reals Lra Lia Psatz.
From Coquelicot Require Import Coquelicot.
From Verif Require Import Base BaseFacts Vec GeomModel OutwardFacts FieldModel FieldFacts SeriesModel SeriesFacts Field3DFacts EllipticSpec EllipticFacts RingModel RingFacts LoopFacts.
Local Open Scope R_scope.

(** ** C51 Argument transformations of the elliptic integrals *)
(** The approximations are made for arguments in (0, 1]; nothing is assumed about them elsewhere. *)
Definition exact_in_range (f g : R -> R) : Prop := forall p, 0 < p <= 1 -> f p = g p.
(** Second kind: from exact values in the range of the approximation, ellipe is exact for every k < 1. *)
Theorem C51_second_kind em1 : exact_in_range em1 exact_em1 -> forall k, k < 1 -> ellipe_of em1 k = elliptic_E k.
Proof.
  intros X k H. unfold ellipe_of. destruct (Rle_dec 0 k) as [P|P]; [destruct (Rle_dec k 1) as [Q|Q]; [|lra]|].
  - rewrite X by lra. unfold exact_em1. f_equal. ring.
  - assert (I : 0 < -1 / (k - 1) <= 1).
    { split. replace (-1 / (k - 1)) with (1 / (1 - k)) by (field; lra). apply Rdiv_lt_0_compat; lra. apply (Rmult_le_reg_r (1 - k)); [lra|]. replace (-1 / (k - 1) * (1 - k)) with 1 by (field; lra). lra. }
    rewrite X by exact I. rewrite (E_transform k H). unfold exact_em1. do 2 f_equal. field. lra.
Qed.
Print Assumptions C51_second_kind.
(** First kind: exact for 0 <= k < 1, the arguments that occur in the fields of rings and loops.  For -1 < k < 0 the approximation
    is called outside of its range, at 1 - k. *)
Theorem C51_first_kind_partial km1 : (exact_in_range km1 exact_km1 -> forall k, 0 <= k < 1 -> ellipk_of km1 k = elliptic_K k) /\
  (forall k, -1 < k < 0 -> 1 < 1 - k /\ ellipk_of km1 k = km1 (1 - k)).
Proof.
  split.
  - intros X k H. unfold ellipk_of. destruct (Rlt_dec (-1) k) as [_|N]; [|lra]. rewrite X by lra. unfold exact_km1. f_equal. ring.
  - intros k H. split; [lra|]. unfold ellipk_of. destruct (Rlt_dec (-1) k) as [_|N]; [reflexivity|lra].
Qed.
Print Assumptions C51_first_kind_partial.
(** The property is false for the first kind and k <= -1: the code divides by sqrt(k), which is not a number, where the identity has
    sqrt(1 - k); even the square root of |k| would be wrong. *)
Theorem C51_first_kind_refuted km1 : exact_in_range km1 exact_km1 -> forall k, k <= -1 ->
  elliptic_K k = km1 (1 / (1 - k)) / sqrt (1 - k) /\ ellipk_of km1 k = km1 (1 / (1 - k)) / sqrt k /\ k < 0 /\
  ellipk_of km1 k <> elliptic_K k /\ km1 (1 / (1 - k)) / sqrt (Rabs k) <> elliptic_K k.
Proof.
  intros X k H. assert (L : k < 1) by lra. assert (I : 0 < 1 / (1 - k) <= 1).
  { split; [apply Rdiv_lt_0_compat; lra|]. apply (Rmult_le_reg_r (1 - k)); [lra|]. replace (1 / (1 - k) * (1 - k)) with 1 by (field; lra). lra. }
  assert (E : elliptic_K k = km1 (1 / (1 - k)) / sqrt (1 - k)).
  { rewrite X by exact I. rewrite (K_transform k L). unfold exact_km1. do 2 f_equal. field. lra. }
  assert (V : ellipk_of km1 k = km1 (1 / (1 - k)) / sqrt k) by (unfold ellipk_of; destruct (Rlt_dec (-1) k); [lra|reflexivity]).
  pose proof (K_pos k L) as P. split; [exact E|]. split; [exact V|]. split; [lra|]. split.
  - rewrite V, (sqrt_neg_0 k) by lra. unfold Rdiv. rewrite Rinv_0. lra.
  - rewrite E in P |- *. rewrite Rabs_left by lra. assert (S1 : 0 < sqrt (- k)) by (apply sqrt_lt_R0; lra). assert (S2 : 0 < sqrt (1 - k)) by (apply sqrt_lt_R0; lra).
    assert (S3 : sqrt (- k) < sqrt (1 - k)) by (apply sqrt_lt_1; lra). set (v := km1 (1 / (1 - k))) in *.
    assert (Pv : 0 < v). { replace v with (v / sqrt (1 - k) * sqrt (1 - k)) by (field; lra). apply Rmult_lt_0_compat; assumption. }
    assert (/ sqrt (1 - k) < / sqrt (- k)) by (apply Rinv_lt_contravar; [apply Rmult_lt_0_compat; assumption|exact S3]). unfold Rdiv. nra.
Qed.
Print Assumptions C51_first_kind_refuted.
Example C51_nonvacuous : exact_in_range exact_km1 exact_km1 /\ exact_in_range exact_em1 exact_em1 /\ ellipe_of exact_em1 (-3) = 2 * elliptic_E (3 / 4).
Proof.
  split; [intros p _; reflexivity|]. split; [intros p _; reflexivity|]. unfold ellipe_of. destruct (Rle_dec 0 (-3)); [lra|].
  replace (1 - -3) with (2 * 2) by ring. rewrite sqrt_square by lra. unfold exact_em1. rewrite Rmult_comm. do 2 f_equal. field.
Qed.

(** ** C56 Radial fields: rings of charge *)
(** With exact elliptic integrals the reported radial potential is the potential of the charge spread over the circles swept by the
    quadrature points... *)
Theorem C56_potential c p : off_rings c p ->
  potential_radial_of exact_km1 p c = evaluate (fun q => RInt (fun phi => vx q * potential_3d_point p (circle (vx q) (vz q) phi)) 0 (2 * PI)) c.
Proof.
  intros O. unfold potential_radial_of, evaluate, source_sum. apply Rsum_ext. intros x Hx. f_equal. apply Rsum_ext. intros jp Hj. f_equal.
  destruct (O x jp Hx Hj) as (Hr & Hoff). destruct p as [px py pz]. cbn [vx vy vz] in *. apply ring_is_circle; [exact Hr|]. apply near2_pos. exact Hoff.
Qed.
Print Assumptions C56_potential.
(** ... and the reported field is minus its gradient, at every point on the axis or at least 1e-10 away from it and off the rings. *)
Theorem C56_gradient c p : off_rings c p -> (MIN_DISTANCE_AXIS <= norm_2d (vx p) (vy p) \/ vx p = 0 /\ vy p = 0) ->
  gradient (fun x => potential_radial_of exact_km1 x c) p (vneg (field_radial_of exact_km1 exact_em1 p c)).
Proof. apply rings_gradient. Qed.
Print Assumptions C56_gradient.
(** The code is this formula with the approximations in place of the integrals. *)
Theorem C56_code : potential_radial = potential_radial_of ellipkm1 /\ field_radial = field_radial_of ellipkm1 ellipem1 /\ current_field = current_field_of (ellipk_of ellipkm1) (ellipe_of ellipem1).
Proof. repeat split. Qed.
Print Assumptions C56_code.
(** An error of the approximation is passed on at most in proportion. *)
Theorem C56_error eps c p : off_rings c p -> (forall t, 0 < t <= 1 -> Rabs (ellipkm1 t - exact_km1 t) <= eps) ->
  Rabs (potential_radial p c - potential_radial_of exact_km1 p c) <=
  eps * Rsum (map (fun x => Rabs (fst x) * Rsum (map (fun jp => Rabs (fst jp) * (vx (snd jp) / (PI * sqrt (far2 (norm_2d (vx p) (vy p)) (vz p) (vx (snd jp)) (vz (snd jp)))))) (snd x))) (q_items c)).
Proof.
  intros O He. change (potential_radial p c) with (potential_radial_of ellipkm1 p c). unfold potential_radial_of, evaluate, source_sum. pose proof PI_RGT_0 as Hpi.
  assert (G : forall A (f g h : A -> R) (l : list A), (forall a, In a l -> Rabs (f a - g a) <= eps * h a) -> Rabs (Rsum (map f l) - Rsum (map g l)) <= eps * Rsum (map h l)).
  { intros A f g h l. induction l as [|a l IH]; intros H; [unfold Rsum; cbn; rewrite Rminus_0_r, Rabs_R0; lra|].
    pose proof (H a (or_introl eq_refl)) as H1. specialize (IH (fun b Hb => H b (or_intror Hb))).
    change (Rabs ((f a + Rsum (map f l)) - (g a + Rsum (map g l))) <= eps * (h a + Rsum (map h l))).
    replace ((f a + Rsum (map f l)) - (g a + Rsum (map g l))) with ((f a - g a) + (Rsum (map f l) - Rsum (map g l))) by ring.
    eapply Rle_trans; [apply Rabs_triang|]. lra. }
  apply G. intros x Hx. rewrite <- Rmult_minus_distr_l, Rabs_mult.
  match goal with |- _ * ?d <= eps * (_ * ?s) => assert (B : d <= eps * s) end.
  2: { rewrite <- Rmult_assoc, (Rmult_comm eps), Rmult_assoc. apply Rmult_le_compat_l; [apply Rabs_pos|exact B]. }
  apply G. intros jp Hj. destruct (O x jp Hx Hj) as (Hr & Hoff). rewrite <- Rmult_minus_distr_l, Rabs_mult.
  set (r0 := norm_2d (vx p) (vy p)) in *. pose proof (far2_pos r0 (vz p) (vx (snd jp)) (vz (snd jp)) (norm_2d_nonneg _ _) Hr) as F. pose proof (sqrt_lt_R0 _ F) as S. pose proof (near2_pos _ _ _ _ Hoff) as N.
  pose proof (Rabs_pos (fst jp)) as Pj.
  match goal with |- _ * ?d <= eps * (_ * ?s) => assert (B : d <= eps * s) end.
  2: { rewrite <- Rmult_assoc, (Rmult_comm eps), Rmult_assoc. apply Rmult_le_compat_l; [apply Rabs_pos|exact B]. }
  unfold potential_radial_ring_of. set (r := vx (snd jp)) in *. set (z := vz (snd jp)) in *.
  replace ((z - vz p) ^ 2 + (r - r0 + 2 * r0) ^ 2) with (far2 r0 (vz p) r z) by (unfold far2; ring).
  replace ((z - vz p) ^ 2 + (r - r0) ^ 2 + 4 * r0 * (r - r0) + 4 * r0 ^ 2) with (far2 r0 (vz p) r z) by (unfold far2; ring).
  fold (near2 r0 (vz p) r z). set (t := near2 r0 (vz p) r z / far2 r0 (vz p) r z).
  assert (T : 0 < t <= 1). { split; [apply Rdiv_lt_0_compat; assumption|]. apply (Rmult_le_reg_r (far2 r0 (vz p) r z)); [exact F|]. unfold t. replace (near2 r0 (vz p) r z / far2 r0 (vz p) r z * far2 r0 (vz p) r z) with (near2 r0 (vz p) r z) by (field; lra).
    unfold near2, far2. pose proof (norm_2d_nonneg (vx p) (vy p)). fold r0 in H. nra. }
  specialize (He t T). replace (1 / PI * ellipkm1 t * (r - r0 + r0) / sqrt (far2 r0 (vz p) r z) - 1 / PI * exact_km1 t * (r - r0 + r0) / sqrt (far2 r0 (vz p) r z))
    with (r / (PI * sqrt (far2 r0 (vz p) r z)) * (ellipkm1 t - exact_km1 t)) by (field; split; lra).
  assert (Q : 0 < r / (PI * sqrt (far2 r0 (vz p) r z))) by (apply Rdiv_lt_0_compat; [exact Hr|apply Rmult_lt_0_compat; lra]).
  rewrite Rabs_mult, (Rabs_pos_eq (r / _)) by lra. nra.
Qed.
Print Assumptions C56_error.
Example C56_nonvacuous : exists c p, off_rings c p /\ MIN_DISTANCE_AXIS <= norm_2d (vx p) (vy p) /\ q_items c <> [] /\ vz (field_radial_of exact_km1 exact_em1 p c) <> 0.
Proof.
  exists (mkcharges LINE_RULE [(1, [(1, V3 2 0 0)])]), (V3 1 0 1). assert (n1 : norm_2d 1 0 = 1) by (unfold norm_2d; replace (1 * 1 + 0 * 0) with 1 by ring; exact sqrt_1).
  split; [intros x jp [<-|[]] [<-|[]]; cbn [vx vy vz snd]; rewrite n1; split; [lra|intros [? ?]; lra]|]. cbn [vx vy vz]. rewrite n1. split; [unfold MIN_DISTANCE_AXIS; lra|]. split; [discriminate|].
  unfold field_radial_of, from_cylinder. cbn [vx vy vz]. rewrite n1. destruct (Rle_dec MIN_DISTANCE_AXIS 1) as [_|B]; [|unfold MIN_DISTANCE_AXIS in B; lra]. cbn [vz].
  unfold evaluate, source_sum. cbn [q_items map fst snd vx vz Rsum fold_right]. rewrite ring_dz1_exact by (unfold near2; lra).
  assert (F : far2 1 1 2 0 = 10) by (unfold far2; ring). assert (N : near2 1 1 2 0 = 2) by (unfold near2; ring). rewrite F, N.
  assert (L : modulus 1 1 2 0 < 1) by (apply modulus_lt_1; rewrite ?F, ?N; lra). pose proof (E_pos _ L) as P. pose proof PI_RGT_0. assert (0 < sqrt 10) by (apply sqrt_lt_R0; lra).
  replace (- _) with (2 / (PI * 2 * sqrt 10) * elliptic_E (modulus 1 1 2 0)) by (field; lra). apply Rgt_not_eq. assert (0 < PI * sqrt 10) by (apply Rmult_lt_0_compat; [exact PI_RGT_0|assumption]). apply Rmult_lt_0_compat; [apply Rdiv_lt_0_compat; lra|exact P].
Qed.

(** ** C57 Current loops: the law of Biot and Savart *)
(** No loop passes through [p] and none is thinner than 1e-10 (the code leaves those out). *)
Definition off_loops (c : charges) (p : vec3) : Prop :=
  forall x jp, In x (q_items c) -> In jp (snd x) -> MIN_DISTANCE_AXIS <= vx (snd jp) /\ ~ (norm_2d (vx p) (vy p) = vx (snd jp) /\ vz p = vz (snd jp)).
Theorem C57_biot_savart km1 em1 c p : exact_in_range km1 exact_km1 -> exact_in_range em1 exact_em1 -> off_loops c p ->
  (MIN_DISTANCE_AXIS <= norm_2d (vx p) (vy p) \/ vx p = 0 /\ vy p = 0) ->
  let H q := integral_turn (biot_savart p (vx q) (vz q)) in
  current_field_of (ellipk_of km1) (ellipe_of em1) p c = V3 (evaluate (fun q => vx (H q)) c) (evaluate (fun q => vy (H q)) c) (evaluate (fun q => vz (H q)) c).
Proof.
  intros XK XE O Hp H.
  assert (EX : exact_on_unit (ellipk_of km1) (ellipe_of em1)).
  { intros k Hk. split; [apply (proj1 (C51_first_kind_partial km1) XK); exact Hk|apply C51_second_kind; [exact XE|lra]]. }
  set (br := fun q => fst (current_field_radial_ring_of (ellipk_of km1) (ellipe_of em1) (norm_2d (vx p) (vy p)) (vz p) (vx q) (vz q))).
  set (bz := fun q => snd (current_field_radial_ring_of (ellipk_of km1) (ellipe_of em1) (norm_2d (vx p) (vy p)) (vz p) (vx q) (vz q))).
  assert (G : forall x jp, In x (q_items c) -> In jp (snd x) -> from_cylinder p (br (snd jp)) (bz (snd jp)) = H (snd jp)).
  { intros x jp Hx Hj. destruct (O x jp Hx Hj) as (Ha & Hoff). apply loop_is_biot_savart; assumption. }
  assert (V : forall f g, (forall x jp, In x (q_items c) -> In jp (snd x) -> f (snd jp) = g (snd jp)) -> evaluate f c = evaluate g c).
  { intros f g E. unfold evaluate, source_sum. apply Rsum_ext. intros x Hx. f_equal. apply Rsum_ext. intros jp Hj. f_equal. exact (E x jp Hx Hj). }
  rewrite <- (V (fun q => vx (from_cylinder p (br q) (bz q))) (fun q => vx (H q))), <- (V (fun q => vy (from_cylinder p (br q) (bz q))) (fun q => vy (H q))), <- (V (fun q => vz (from_cylinder p (br q) (bz q))) (fun q => vz (H q)))
    by (intros x jp Hx Hj; rewrite (G x jp Hx Hj); reflexivity).
  unfold current_field_of. change (evaluate (fun q => fst _) c) with (evaluate br c). change (evaluate (fun q => snd _) c) with (evaluate bz c).
  assert (S : forall k f, evaluate (fun q => k * f q) c = k * evaluate f c).
  { intros k f. unfold evaluate, source_sum. rewrite <- Rsum_scal. apply Rsum_ext. intros x _. rewrite <- Rmult_assoc, (Rmult_comm k), Rmult_assoc. f_equal. rewrite <- Rsum_scal. apply Rsum_ext. intros jp _. ring. }
  unfold from_cylinder. destruct (Rle_dec MIN_DISTANCE_AXIS (norm_2d (vx p) (vy p))); cbn [vx vy vz]; f_equal.
  - symmetry. apply (S _ br).
  - symmetry. apply (S _ br).
  - symmetry. rewrite (V (fun _ => 0) (fun q => 0 * 0)) by (intros; ring). rewrite (S 0 (fun _ => 0)). ring.
  - symmetry. rewrite (V (fun _ => 0) (fun q => 0 * 0)) by (intros; ring). rewrite (S 0 (fun _ => 0)). ring.
Qed.
Print Assumptions C57_biot_savart.
(** On the axis of one loop: the textbook value. *)
Example C57_nonvacuous : exists c p, off_loops c p /\ vx p = 0 /\ vy p = 0 /\ current_field_of (ellipk_of exact_km1) (ellipe_of exact_em1) p c = V3 0 0 (1 / 2).
Proof.
  exists (mkcharges TRIANGLE_RULE [(1, [(1, V3 1 0 0)])]), (V3 0 0 0). assert (n0 : norm_2d 0 0 = 0) by (unfold norm_2d; replace (0 * 0 + 0 * 0) with 0 by ring; exact sqrt_0).
  split; [intros x jp [<-|[]] [<-|[]]; cbn [vx vy vz snd]; rewrite n0; split; [unfold MIN_DISTANCE_AXIS; lra|intros [? ?]; lra]|]. split; [reflexivity|]. split; [reflexivity|].
  unfold current_field_of, from_cylinder. cbn [vx vy vz]. rewrite n0. destruct (Rle_dec MIN_DISTANCE_AXIS 0) as [B|_]; [unfold MIN_DISTANCE_AXIS in B; lra|]. f_equal.
  unfold evaluate, source_sum. cbn [q_items map fst snd vx vz Rsum fold_right]. unfold current_field_radial_ring_of.
  destruct (Rlt_dec 1 MIN_DISTANCE_AXIS) as [B|_]; [unfold MIN_DISTANCE_AXIS in B; lra|]. cbn [snd].
  replace ((0 - 0) ^ 2 + (1 + 0) ^ 2) with 1 by ring. replace ((0 - 0) ^ 2 + (0 - 1) ^ 2) with 1 by ring. replace (4 * 0 * 1 / 1) with 0 by field. rewrite sqrt_1.
  rewrite (C51_second_kind exact_em1) by (try lra; intros q _; reflexivity). rewrite (proj1 (C51_first_kind_partial exact_km1)) by (try lra; intros q _; reflexivity).
  rewrite E_zero, K_zero. pose proof PI_RGT_0. field. lra.
Qed.
