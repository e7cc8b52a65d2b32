(** The potential of a uniformly charged triangle at one of its corners and at a point inside it. *)
From Coq Require Import Reals Lra Lia Psatz.
From Coquelicot Require Import Coquelicot.
From Verif Require Import Base Vec GeomModel GeomFacts TriangleModel TriangleSpec TriangleFacts.
Local Open Scope R_scope.

(** One edge seen from a point of its plane: [h] the distance to the line of the edge, [t1], [t2] the ends of the
    edge along that line. *)
Definition edge_value (h t1 t2 : R) : R := h * (arcsinh (t2 / h) - arcsinh (t1 / h)).

(** The integral of 1/r along the edge, times twice the area. *)
Lemma edge_integral a b c : 0 < a -> 0 < c ->
  is_RInt (fun t => a * c / sqrt ((a + t * (b - a)) ^ 2 + (t * c) ^ 2)) 0 1
    (a * c / sqrt ((b - a) ^ 2 + c ^ 2) * (arcsinh (((b - a) * b + c ^ 2) / (a * c)) - arcsinh ((b - a) / c))).
Proof.
  intros Ha Hc. set (L2 := (b - a) ^ 2 + c ^ 2). assert (P : 0 < L2) by (unfold L2; pose proof (pow2_ge_0 (b - a)); nra).
  pose proof (sqrt_lt_R0 _ P) as S. assert (S2 : sqrt L2 * sqrt L2 = L2) by (apply sqrt_sqrt; lra).
  set (F := fun t => a * c / sqrt L2 * arcsinh ((t * L2 + a * (b - a)) / (a * c))).
  replace (a * c / sqrt L2 * (arcsinh (((b - a) * b + c ^ 2) / (a * c)) - arcsinh ((b - a) / c))) with (F 1 - F 0).
  2: { unfold F. replace ((1 * L2 + a * (b - a)) / (a * c)) with (((b - a) * b + c ^ 2) / (a * c)) by (unfold L2; f_equal; ring).
       replace ((0 * L2 + a * (b - a)) / (a * c)) with ((b - a) / c) by (field; lra). ring. }
  assert (Q : forall t, 0 < (a + t * (b - a)) ^ 2 + (t * c) ^ 2).
  { intros t. pose proof (pow2_ge_0 (a + t * (b - a))) as A. pose proof (pow2_ge_0 (t * c)) as B. destruct (Req_EM_T t 0) as [->|N]; [nra|].
    assert (0 < (t * c) ^ 2); [|lra]. rewrite Rpow_mult_distr. apply Rmult_lt_0_compat; [apply pow2_gt_0; exact N|apply pow_lt; exact Hc]. }
  apply (is_RInt_derive_all F).
  - intros t. unfold F.
    assert (D : is_derive (fun t => (t * L2 + a * (b - a)) / (a * c)) t (L2 / (a * c))) by (auto_derive; [nra|field; lra]).
    pose proof (is_derive_comp arcsinh _ t _ _ (arcsinh_derive _) D) as C.
    pose proof (is_derive_scal _ t (a * c / sqrt L2) _ C) as C2. cbn beta in C2. eapply is_derive_eq; [|exact C2].
    unfold scal; cbn; unfold mult; cbn.
    assert (E : sqrt ((t * L2 + a * (b - a)) / (a * c) * ((t * L2 + a * (b - a)) / (a * c) * 1) + 1) = sqrt L2 * sqrt ((a + t * (b - a)) ^ 2 + (t * c) ^ 2) / (a * c)).
    { apply sqrt_lem_1.
      - pose proof (pow2_ge_0 ((t * L2 + a * (b - a)) / (a * c))). cbn in H. lra.
      - apply Rmult_le_pos; [apply Rmult_le_pos; [lra|apply sqrt_pos]|]. left. apply Rinv_0_lt_compat. nra.
      - pose proof (sqrt_sqrt _ (Rlt_le _ _ (Q t))) as W. set (w := sqrt ((a + t * (b - a)) ^ 2 + (t * c) ^ 2)) in *.
        transitivity ((sqrt L2 * sqrt L2) * (w * w) / ((a * c) * (a * c))); [field; lra|]. rewrite S2, W. unfold L2. field. lra. }
    pose proof (sqrt_lt_R0 _ (Q t)) as W. rewrite E. set (w := sqrt ((a + t * (b - a)) ^ 2 + (t * c) ^ 2)) in *.
    assert (G : forall s l w : R, 0 < s -> 0 < w -> s * s = l -> a * c / s * (l / (a * c) * / (s * w / (a * c))) = a * c / w).
    { intros s l w0 Hs Hw <-. field. repeat split; lra. }
    exact (G _ _ _ S W S2).
  - intros t. specialize (Q t). auto_derive. cbn in Q. pose proof (sqrt_lt_R0 _ Q) as W. split; [exact Q|]. split; [|auto]. lra.
Qed.
(** The formula of the code is the value of the edge. *)
Lemma self_v0_edge p v1 v2 : nondegenerate p v1 v2 ->
  let a := norm (vsub v1 p) in let b := dot (vsub v2 p) (x_axis p v1) in let c := dot (vsub v2 p) (y_axis p v1 v2) in
  self_potential_triangle_v0 p v1 v2 = a * c / sqrt ((b - a) ^ 2 + c ^ 2) * (arcsinh (((b - a) * b + c ^ 2) / (a * c)) - arcsinh ((b - a) / c)).
Proof.
  intros N a b c. destruct (triangle_frame _ _ _ N) as (_ & _ & _ & _ & P1 & P2 & _). cbv zeta in *. fold a in P1. fold c in P2.
  unfold self_potential_triangle_v0. fold a b c. cbv zeta. clearbody a b c.
  replace (((b - a) / c * c + a) / c) with (b / c) by (field; lra).
  replace (((b - a) / c * ((b - a) / c) * c + c + (b - a) / c * a) / a) with (((b - a) * b + c ^ 2) / (a * c)) by (field; lra).
  assert (P : 0 < (b - a) ^ 2 + c ^ 2) by (pose proof (pow2_ge_0 (b - a)); nra).
  assert (E : sqrt ((b - a) / c * ((b - a) / c) + 1) = sqrt ((b - a) ^ 2 + c ^ 2) / c).
  { replace ((b - a) / c * ((b - a) / c) + 1) with (((b - a) ^ 2 + c ^ 2) / (c * c)) by (field; lra). rewrite sqrt_div_alt by nra. rewrite sqrt_square by lra. reflexivity. }
  rewrite E. pose proof (sqrt_lt_R0 _ P). field. split; lra.
Qed.

(** The corner: 2 * area times the integral of s / (s r(t)) over the two coordinates of [corner_point]. *)
Definition corner_point (p v1 v2 : vec3) (s t : R) : vec3 := triangle_point p v1 v2 (s * (1 - t)) (s * t).
Lemma corner_distance p v1 v2 s t : nondegenerate p v1 v2 -> 0 <= s ->
  let a := norm (vsub v1 p) in let b := dot (vsub v2 p) (x_axis p v1) in let c := dot (vsub v2 p) (y_axis p v1 v2) in
  dist3 (corner_point p v1 v2 s t) p = s * sqrt ((a + t * (b - a)) ^ 2 + (t * c) ^ 2).
Proof.
  intros N Hs a b c. unfold corner_point. rewrite triangle_point_position. unfold dist3. apply norm_unique; [apply Rmult_le_pos; [exact Hs|apply sqrt_pos]|].
  rewrite (offset_distance p v1 v2 p (s * (1 - t)) (s * t) N). cbv zeta. unfold normalized. cbn [nt_x0 nt_y0 nt_a nt_b nt_c nt_z]. fold a b c.
  assert (Z : vsub p p = vzero) by (unfold vsub, vzero; f_equal; ring). rewrite Z.
  assert (D : forall w, dot vzero w = 0) by (intros w; unfold dot, vzero; cbn [vx vy vz]; ring). rewrite !D.
  replace (dot (z_axis p v1 v2) vzero) with 0 by (unfold dot, vzero; cbn [vx vy vz]; ring).
  pose proof (sqrt_sqrt ((a + t * (b - a)) ^ 2 + (t * c) ^ 2)) as W. rewrite !Rmult_1_r || idtac.
  symmetry. transitivity (s * s * (sqrt ((a + t * (b - a)) ^ 2 + (t * c) ^ 2) * sqrt ((a + t * (b - a)) ^ 2 + (t * c) ^ 2))); [ring|].
  rewrite W; [ring|]. pose proof (pow2_ge_0 (a + t * (b - a))). pose proof (pow2_ge_0 (t * c)). lra.
Qed.
Lemma cross_norm p v1 v2 : nondegenerate p v1 v2 -> norm (cross (vsub v1 p) (vsub v2 p)) = norm (vsub v1 p) * dot (vsub v2 p) (y_axis p v1 v2).
Proof.
  intros N. destruct (triangle_frame _ _ _ N) as (_ & _ & _ & _ & _ & _ & E). cbv zeta in E. rewrite E. unfold triangle_area. field.
Qed.
Lemma corner_integral p v1 v2 e : nondegenerate p v1 v2 -> 0 < e <= 1 ->
  is_RInt (fun t => RInt (fun s => s * norm (cross (vsub v1 p) (vsub v2 p)) * coulomb p (corner_point p v1 v2 s t)) e 1) 0 1 ((1 - e) * self_potential_triangle_v0 p v1 v2).
Proof.
  intros N He. destruct (triangle_frame _ _ _ N) as (_ & _ & _ & _ & P1 & P2 & _). cbv zeta in *.
  rewrite (self_v0_edge p v1 v2 N), (cross_norm p v1 v2 N). cbv zeta.
  set (a := norm (vsub v1 p)) in *. set (b := dot (vsub v2 p) (x_axis p v1)). set (c := dot (vsub v2 p) (y_axis p v1 v2)) in *.
  apply (is_RInt_ext (fun t => (1 - e) * (a * c / sqrt ((a + t * (b - a)) ^ 2 + (t * c) ^ 2)))); [|apply (is_RInt_scal (fun t => a * c / sqrt ((a + t * (b - a)) ^ 2 + (t * c) ^ 2))), edge_integral; assumption].
  intros t _. symmetry. apply is_RInt_unique.
  assert (Q : 0 < (a + t * (b - a)) ^ 2 + (t * c) ^ 2).
  { pose proof (pow2_ge_0 (a + t * (b - a))) as A. pose proof (pow2_ge_0 (t * c)) as B. destruct (Req_EM_T t 0) as [->|Nt]; [nra|].
    assert (0 < (t * c) ^ 2); [|lra]. rewrite Rpow_mult_distr. apply Rmult_lt_0_compat; [apply pow2_gt_0; exact Nt|apply pow_lt; exact P2]. }
  pose proof (sqrt_lt_R0 _ Q) as W.
  apply (is_RInt_ext (fun _ => a * c / sqrt ((a + t * (b - a)) ^ 2 + (t * c) ^ 2))).
  - intros s. rewrite Rmin_left, Rmax_right by lra. intros Hs. unfold coulomb. rewrite (corner_distance p v1 v2 s t N) by lra. fold a b c. cbv zeta.
    match goal with |- ?l = ?r => change (@eq R l r) end. field. split; lra.
  - apply (is_RInt_const (V := R_NormedModule) e 1).
Qed.
