(** Facts about the charged triangle. *)
From Coq Require Import Reals Lra Lia Psatz.
From Coquelicot Require Import Coquelicot.
From Verif Require Import Base BaseFacts Vec GeomModel TriangleModel TriangleSpec.
Local Open Scope R_scope.

(** ** The coordinate frame *)
Definition nondegenerate (v0 v1 v2 : vec3) : Prop := cross (vsub v1 v0) (vsub v2 v0) <> vzero.
Lemma norm_pos v : v <> vzero -> 0 < norm v.
Proof. intros N. destruct (norm_nonneg v) as [|E]; [assumption|]. exfalso. apply N. apply norm_zero. auto. Qed.
Lemma normalize_unit v : v <> vzero -> dot (normalize_3d v) (normalize_3d v) = 1.
Proof.
  intros N. pose proof (norm_pos v N) as P. pose proof (norm_sq v) as S. unfold normalize_3d, dot in *. cbn [vx vy vz] in *.
  replace (vx v / norm v * (vx v / norm v) + vy v / norm v * (vy v / norm v) + vz v / norm v * (vz v / norm v))
    with ((vx v * vx v + vy v * vy v + vz v * vz v) / (norm v * norm v)) by (field; lra). rewrite <- S. field. lra.
Qed.
Lemma normalize_scale v : v <> vzero -> v = vscale (norm v) (normalize_3d v).
Proof. intros N. pose proof (norm_pos v N). unfold normalize_3d, vscale. apply vec_eq; cbn [vx vy vz]; field; lra. Qed.
Lemma normalize_dot v w : v <> vzero -> dot (normalize_3d v) w = dot v w / norm v.
Proof. intros N. pose proof (norm_pos v N). unfold normalize_3d, dot. cbn [vx vy vz]. field. lra. Qed.

Record orthonormal (x y z : vec3) : Prop := {
  on_xx : dot x x = 1; on_yy : dot y y = 1; on_zz : dot z z = 1;
  on_xy : dot x y = 0; on_xz : dot x z = 0; on_yz : dot y z = 0 }.
(** With y = z x x the coordinates along the axes determine a vector. *)
Lemma frame_decompose x z u : dot x x = 1 -> dot z z = 1 -> dot x z = 0 ->
  u = vadd (vadd (vscale (dot u x) x) (vscale (dot u (cross z x)) (cross z x))) (vscale (dot u z) z).
Proof.
  intros Hx Hz Hxz. destruct x as [x1 x2 x3], z as [z1 z2 z3], u as [u1 u2 u3]. unfold dot, cross, vadd, vscale in *. cbn [vx vy vz] in *.
  (* x x^T + y y^T + z z^T = I for y = z x x, x and z orthonormal *)
  assert (E1 : (z2 * x3 - z3 * x2) * (z2 * x3 - z3 * x2) = 1 - x1 * x1 - z1 * z1).
  { assert (A : (z2*x3-z3*x2)*(z2*x3-z3*x2) = (z2*z2+z3*z3)*(x2*x2+x3*x3) - (z2*x2+z3*x3)*(z2*x2+z3*x3)) by ring.
    rewrite A. replace (z2*z2+z3*z3) with (1 - z1*z1) by lra. replace (x2*x2+x3*x3) with (1 - x1*x1) by lra. replace (z2*x2+z3*x3) with (-(x1*z1)) by lra. ring. }
  assert (E2 : (z3 * x1 - z1 * x3) * (z3 * x1 - z1 * x3) = 1 - x2 * x2 - z2 * z2).
  { assert (A : (z3*x1-z1*x3)*(z3*x1-z1*x3) = (z1*z1+z3*z3)*(x1*x1+x3*x3) - (z1*x1+z3*x3)*(z1*x1+z3*x3)) by ring.
    rewrite A. replace (z1*z1+z3*z3) with (1 - z2*z2) by lra. replace (x1*x1+x3*x3) with (1 - x2*x2) by lra. replace (z1*x1+z3*x3) with (-(x2*z2)) by lra. ring. }
  assert (E3 : (z1 * x2 - z2 * x1) * (z1 * x2 - z2 * x1) = 1 - x3 * x3 - z3 * z3).
  { assert (A : (z1*x2-z2*x1)*(z1*x2-z2*x1) = (z1*z1+z2*z2)*(x1*x1+x2*x2) - (z1*x1+z2*x2)*(z1*x1+z2*x2)) by ring.
    rewrite A. replace (z1*z1+z2*z2) with (1 - z3*z3) by lra. replace (x1*x1+x2*x2) with (1 - x3*x3) by lra. replace (z1*x1+z2*x2) with (-(x3*z3)) by lra. ring. }
  assert (O12 : (z2 * x3 - z3 * x2) * (z3 * x1 - z1 * x3) = - x1 * x2 - z1 * z2).
  { assert (A : (z2*x3-z3*x2)*(z3*x1-z1*x3) = (z2*x1)*(x3*z3) + (z1*x2)*(x3*z3) - z1*z2*(x3*x3) - x1*x2*(z3*z3)) by ring.
    rewrite A. replace (x3*x3) with (1 - x1*x1 - x2*x2) by lra. replace (z3*z3) with (1 - z1*z1 - z2*z2) by lra. replace (x3*z3) with (- (x1*z1) - x2*z2) by lra. ring. }
  assert (O13 : (z2 * x3 - z3 * x2) * (z1 * x2 - z2 * x1) = - x1 * x3 - z1 * z3).
  { assert (A : (z2*x3-z3*x2)*(z1*x2-z2*x1) = (z1*x3)*(x2*z2) + (z3*x1)*(x2*z2) - z1*z3*(x2*x2) - x1*x3*(z2*z2)) by ring.
    rewrite A. replace (x2*x2) with (1 - x1*x1 - x3*x3) by lra. replace (z2*z2) with (1 - z1*z1 - z3*z3) by lra. replace (x2*z2) with (- (x1*z1) - x3*z3) by lra. ring. }
  assert (O23 : (z3 * x1 - z1 * x3) * (z1 * x2 - z2 * x1) = - x2 * x3 - z2 * z3).
  { assert (A : (z3*x1-z1*x3)*(z1*x2-z2*x1) = (z3*x2)*(x1*z1) + (z2*x3)*(x1*z1) - z2*z3*(x1*x1) - x2*x3*(z1*z1)) by ring.
    rewrite A. replace (x1*x1) with (1 - x2*x2 - x3*x3) by lra. replace (z1*z1) with (1 - z2*z2 - z3*z3) by lra. replace (x1*z1) with (- (x2*z2) - x3*z3) by lra. ring. }
  set (y1 := z2 * x3 - z3 * x2) in *. set (y2 := z3 * x1 - z1 * x3) in *. set (y3 := z1 * x2 - z2 * x1) in *. clearbody y1 y2 y3.
  apply vec_eq; cbn [vx vy vz].
  - transitivity (u1 * (x1*x1 + y1*y1 + z1*z1) + u2 * (x1*x2 + y1*y2 + z1*z2) + u3 * (x1*x3 + y1*y3 + z1*z3)); [rewrite E1, O12, O13; ring|ring].
  - transitivity (u1 * (x1*x2 + y1*y2 + z1*z2) + u2 * (x2*x2 + y2*y2 + z2*z2) + u3 * (x2*x3 + y2*y3 + z2*z3)); [rewrite E2, O12, O23; ring|ring].
  - transitivity (u1 * (x1*x3 + y1*y3 + z1*z3) + u2 * (x2*x3 + y2*y3 + z2*z3) + u3 * (x3*x3 + y3*y3 + z3*z3)); [rewrite E3, O13, O23; ring|ring].
Qed.
Lemma frame_y x z : dot x x = 1 -> dot z z = 1 -> dot x z = 0 -> orthonormal x (cross z x) z.
Proof.
  intros Hx Hz Hxz. constructor; auto.
  - rewrite lagrange, Hx, Hz, (dot_comm z x), Hxz. ring.
  - apply cross_dot_r.
  - rewrite dot_comm. apply cross_dot_l.
Qed.
Lemma frame_dot x y z u w : orthonormal x y z -> (forall v, v = vadd (vadd (vscale (dot v x) x) (vscale (dot v y) y)) (vscale (dot v z) z)) ->
  dot u w = dot u x * dot w x + dot u y * dot w y + dot u z * dot w z.
Proof.
  intros _ D. rewrite (D u) at 1. unfold dot, vadd, vscale. cbn [vx vy vz]. ring.
Qed.

Lemma nondegenerate_edge v0 v1 v2 : nondegenerate v0 v1 v2 -> vsub v1 v0 <> vzero.
Proof. intros N E. apply N. rewrite E. unfold cross, vzero. cbn [vx vy vz]. f_equal; ring. Qed.

Lemma triangle_frame v0 v1 v2 : nondegenerate v0 v1 v2 ->
  let x := x_axis v0 v1 in let y := y_axis v0 v1 v2 in let z := z_axis v0 v1 v2 in
  orthonormal x y z /\ (forall u, u = vadd (vadd (vscale (dot u x) x) (vscale (dot u y) y)) (vscale (dot u z) z)) /\
  vsub v1 v0 = vscale (norm (vsub v1 v0)) x /\ vsub v2 v0 = vadd (vscale (dot (vsub v2 v0) x) x) (vscale (dot (vsub v2 v0) y) y) /\
  0 < norm (vsub v1 v0) /\ 0 < dot (vsub v2 v0) y /\ norm (vsub v1 v0) * dot (vsub v2 v0) y = 2 * triangle_area v0 v1 v2.
Proof.
  intros N x y z. pose proof (nondegenerate_edge _ _ _ N) as N1.
  assert (Hx : dot x x = 1) by (apply normalize_unit; exact N1).
  assert (Hz : dot z z = 1) by (apply normalize_unit; exact N).
  assert (Hxz : dot x z = 0).
  { unfold x, x_axis, z, z_axis. rewrite normalize_dot by exact N1. rewrite dot_comm, normalize_dot by exact N. rewrite dot_comm, cross_dot_l. unfold Rdiv. ring. }
  pose proof (frame_decompose x z) as D0. assert (D : forall u, u = vadd (vadd (vscale (dot u x) x) (vscale (dot u y) y)) (vscale (dot u z) z)).
  { intros u. unfold y, y_axis. fold z x. apply D0; assumption. }
  split; [unfold y, y_axis; fold z x; apply frame_y; assumption|]. split; [exact D|].
  split; [apply normalize_scale; exact N1|]. split.
  { rewrite (D (vsub v2 v0)) at 1.
    assert (Z : dot (vsub v2 v0) z = 0).
    { rewrite dot_comm. unfold z, z_axis. rewrite normalize_dot by exact N. rewrite dot_comm, cross_dot_r. unfold Rdiv. ring. }
    rewrite Z. apply vec_eq; unfold vadd, vscale; cbn [vx vy vz]; ring. }
  pose proof (norm_pos _ N1) as P1. split; [exact P1|].
  assert (E : norm (vsub v1 v0) * dot (vsub v2 v0) y = norm (cross (vsub v1 v0) (vsub v2 v0))).
  { assert (T : dot (vsub v2 v0) y = dot z (cross x (vsub v2 v0))) by (unfold y, y_axis, dot, cross; fold x z; cbn [vx vy vz]; ring).
    rewrite T. assert (C : cross (vsub v1 v0) (vsub v2 v0) = vscale (norm (vsub v1 v0)) (cross x (vsub v2 v0))).
    { rewrite (normalize_scale _ N1) at 1. fold (x_axis v0 v1). fold x. unfold cross, vscale. cbn [vx vy vz]. f_equal; ring. }
    replace (norm (vsub v1 v0) * dot z (cross x (vsub v2 v0))) with (dot z (cross (vsub v1 v0) (vsub v2 v0))).
    - unfold z, z_axis. rewrite normalize_dot by exact N. rewrite <- norm_sq. field. pose proof (norm_pos _ N). lra.
    - rewrite C. unfold dot, vscale. cbn [vx vy vz]. ring. }
  pose proof (norm_pos _ N) as P2. split; [|unfold triangle_area; rewrite E; field].
  apply (Rmult_lt_reg_l (norm (vsub v1 v0))); [exact P1|]. rewrite E, Rmult_0_r. exact P2.
Qed.

(** A point of the triangle relative to the target, in the frame *)
Lemma offset_coordinates v0 v1 v2 target alpha beta : nondegenerate v0 v1 v2 ->
  let t := normalized v0 v1 v2 target in let d := vsub (position_3d alpha beta v0 v1 v2) target in
  dot d (x_axis v0 v1) = nt_x0 t + alpha * nt_a t + beta * nt_b t /\
  dot d (y_axis v0 v1 v2) = nt_y0 t + beta * nt_c t /\ dot d (z_axis v0 v1 v2) = - nt_z t.
Proof.
  intros N t d. destruct (triangle_frame _ _ _ N) as (O & D & E1 & E2 & P1 & P2 & _). cbv zeta in *.
  set (x := x_axis v0 v1) in *. set (y := y_axis v0 v1 v2) in *. set (z := z_axis v0 v1 v2) in *.
  assert (Ed : d = vadd (vadd (vsub v0 target) (vscale alpha (vsub v1 v0))) (vscale beta (vsub v2 v0))).
  { unfold d, position_3d. apply vec_eq; unfold vadd, vsub, vscale; cbn [vx vy vz]; ring. }
  assert (L : forall w, dot d w = dot (vsub v0 target) w + alpha * dot (vsub v1 v0) w + beta * dot (vsub v2 v0) w).
  { intros w. rewrite Ed. unfold dot, vadd, vscale. cbn [vx vy vz]. ring. }
  destruct O as [Oxx Oyy Ozz Oxy Oxz Oyz].
  assert (Q : forall w, dot (vsub v1 v0) w = norm (vsub v1 v0) * dot x w).
  { intros w. rewrite E1 at 1. unfold dot, vscale. cbn [vx vy vz]. ring. }
  rewrite !L, !Q, Oxx, Oxy, Oxz. unfold t, normalized. fold x y z. cbn [nt_x0 nt_y0 nt_a nt_b nt_c nt_z].
  repeat split; try ring.
  assert (Z : dot (vsub v2 v0) z = 0).
  { rewrite E2. replace (dot (vadd (vscale (dot (vsub v2 v0) x) x) (vscale (dot (vsub v2 v0) y) y)) z) with (dot (vsub v2 v0) x * dot x z + dot (vsub v2 v0) y * dot y z).
    - rewrite Oxz, Oyz. ring.
    - unfold dot, vadd, vscale. cbn [vx vy vz]. ring. }
  rewrite Z, (dot_comm z). ring.
Qed.
Lemma offset_distance v0 v1 v2 target alpha beta : nondegenerate v0 v1 v2 ->
  let t := normalized v0 v1 v2 target in
  dot (vsub (position_3d alpha beta v0 v1 v2) target) (vsub (position_3d alpha beta v0 v1 v2) target) =
  (nt_x0 t + alpha * nt_a t + beta * nt_b t) ^ 2 + ((nt_y0 t + beta * nt_c t) ^ 2 + nt_z t ^ 2).
Proof.
  intros N t. destruct (offset_coordinates v0 v1 v2 target alpha beta N) as (X & Y & Z). destruct (triangle_frame _ _ _ N) as (O & D & _). cbv zeta in *.
  rewrite (frame_dot _ _ _ _ _ O D), X, Y, Z. fold t. ring.
Qed.

(** ** The inner integrals *)
Lemma is_derive_eq (f : R -> R) (x l l' : R) : l = l' -> is_derive f x l -> is_derive f x l'.
Proof. intros ->. auto. Qed.
Lemma arcsinh_derive x : is_derive arcsinh x (/ sqrt (x ^ 2 + 1)).
Proof. apply is_derive_Reals. apply derivable_pt_lim_arcsinh. Qed.
Lemma sum_sq_pos p r2 : 0 < r2 -> 0 < p * p + r2.
Proof. intros H. pose proof (Rle_0_sqr p). unfold Rsqr in *. lra. Qed.
Lemma sqrt_scaled p r2 : 0 < r2 -> sqrt ((p / sqrt r2) ^ 2 + 1) = sqrt (p * p + r2) / sqrt r2.
Proof.
  intros H. pose proof (sqrt_lt_R0 _ H) as S. rewrite <- sqrt_div_alt by exact H. f_equal.
  replace ((p / sqrt r2) ^ 2) with (p * p / (sqrt r2 * sqrt r2)) by (field; lra). rewrite sqrt_sqrt by lra. field. lra.
Qed.
Lemma inner_potential_derive x a r2 alpha : 0 < r2 ->
  is_derive (fun s => arcsinh ((x + s * a) / sqrt r2)) alpha (a / sqrt ((x + alpha * a) * (x + alpha * a) + r2)).
Proof.
  intros H. pose proof (sqrt_lt_R0 _ H) as S.
  assert (D : is_derive (fun s => (x + s * a) / sqrt r2) alpha (a / sqrt r2)) by (auto_derive; [auto|field; lra]).
  pose proof (is_derive_comp arcsinh (fun s => (x + s * a) / sqrt r2) alpha _ _ (arcsinh_derive _) D) as C.
  rewrite (sqrt_scaled (x + alpha * a) r2 H) in C. eapply is_derive_eq; [|exact C].
  unfold scal; cbn. unfold mult; cbn. pose proof (sqrt_lt_R0 _ (sum_sq_pos (x + alpha * a) r2 H)). field. lra.
Qed.
Lemma is_RInt_derive_all (f df : R -> R) a b : (forall x, is_derive f x (df x)) -> (forall x, ex_derive df x) -> is_RInt df a b (f b - f a).
Proof.
  intros D C. apply (is_RInt_derive f df a b); [intros; apply D|]. intros x _. apply (ex_derive_continuous (V := R_NormedModule)). apply C.
Qed.
Lemma inner_potential x a r2 u : 0 < r2 ->
  is_RInt (fun s => a / sqrt ((x + s * a) * (x + s * a) + r2)) 0 u (arcsinh ((x + u * a) / sqrt r2) - arcsinh (x / sqrt r2)).
Proof.
  intros H. replace (x / sqrt r2) with ((x + 0 * a) / sqrt r2) by (f_equal; ring).
  apply (is_RInt_derive_all (fun s => arcsinh ((x + s * a) / sqrt r2))).
  - intros s. apply inner_potential_derive. exact H.
  - intros s. pose proof (sum_sq_pos (x + s * a) r2 H). pose proof (sqrt_lt_R0 _ H0). auto_derive. split; [lra|]. split; [lra|auto].
Qed.

(** r / (r2 sqrt (r2 + x^2)) and 1 / sqrt (r2 + x^2) *)
Lemma inner_flux1_derive x a r2 s : 0 < r2 ->
  is_derive (fun s => (x + s * a) / (r2 * sqrt (r2 + (x + s * a) * (x + s * a)))) s (a / (sqrt ((x + s * a) * (x + s * a) + r2) * ((x + s * a) * (x + s * a) + r2))).
Proof.
  intros H. pose proof (sum_sq_pos (x + s * a) r2 H) as P. pose proof (sqrt_lt_R0 _ P) as S. rewrite (Rplus_comm _ r2) in S, P.
  auto_derive.
  - split; [lra|]. split; [|auto]. apply Rgt_not_eq. apply Rmult_lt_0_compat; [exact H|exact S].
  - rewrite (Rplus_comm ((x + s * a) * (x + s * a)) r2). pose proof (sqrt_sqrt (r2 + (x + s * a) * (x + s * a))) as Q. 
    set (w := sqrt (r2 + (x + s * a) * (x + s * a))) in *. set (p := x + s * a) in *. assert (E : w * w = r2 + p * p) by (apply Q; lra). clearbody w p.
    rewrite <- E. assert (Er : r2 = w * w - p * p) by lra. field_simplify_eq; [|lra]. rewrite Er. ring.
Qed.
Lemma inner_flux0_derive x a r2 s : 0 < r2 ->
  is_derive (fun s => 1 / sqrt (r2 + (x + s * a) * (x + s * a))) s (a * - (x + s * a) / (sqrt ((x + s * a) * (x + s * a) + r2) * ((x + s * a) * (x + s * a) + r2))).
Proof.
  intros H. pose proof (sum_sq_pos (x + s * a) r2 H) as P. pose proof (sqrt_lt_R0 _ P) as S. rewrite (Rplus_comm _ r2) in S, P.
  auto_derive.
  - split; [lra|]. split; [|auto]. lra.
  - rewrite (Rplus_comm ((x + s * a) * (x + s * a)) r2). pose proof (sqrt_sqrt (r2 + (x + s * a) * (x + s * a))) as Q. 
    set (w := sqrt (r2 + (x + s * a) * (x + s * a))) in *. set (p := x + s * a) in *. assert (E : w * w = r2 + p * p) by (apply Q; lra). clearbody w p.
    rewrite <- E. field. lra.
Qed.
Lemma inner_flux1 x a r2 u : 0 < r2 ->
  is_RInt (fun s => a / (sqrt ((x + s * a) * (x + s * a) + r2) * ((x + s * a) * (x + s * a) + r2))) 0 u
    ((x + u * a) / (r2 * sqrt (r2 + (x + u * a) * (x + u * a))) - x / (r2 * sqrt (r2 + x * x))).
Proof.
  intros H. replace (x / (r2 * sqrt (r2 + x * x))) with ((x + 0 * a) / (r2 * sqrt (r2 + (x + 0 * a) * (x + 0 * a)))) by (rewrite Rmult_0_l, Rplus_0_r; reflexivity).
  apply (is_RInt_derive_all (fun s => (x + s * a) / (r2 * sqrt (r2 + (x + s * a) * (x + s * a))))).
  - intros s. apply inner_flux1_derive. exact H.
  - intros s. pose proof (sum_sq_pos (x + s * a) r2 H). pose proof (sqrt_lt_R0 _ H0). auto_derive. split; [lra|]. split; [|auto].
    apply Rgt_not_eq. apply Rmult_lt_0_compat; assumption.
Qed.
Lemma inner_flux0 x a r2 u : 0 < r2 ->
  is_RInt (fun s => a * - (x + s * a) / (sqrt ((x + s * a) * (x + s * a) + r2) * ((x + s * a) * (x + s * a) + r2))) 0 u
    (1 / sqrt (r2 + (x + u * a) * (x + u * a)) - 1 / sqrt (r2 + x * x)).
Proof.
  intros H. assert (E : x * x = (x + 0 * a) * (x + 0 * a)) by ring. rewrite E.
  apply (is_RInt_derive_all (fun s => 1 / sqrt (r2 + (x + s * a) * (x + s * a)))).
  - intros s. apply inner_flux0_derive. exact H.
  - intros s. pose proof (sum_sq_pos (x + s * a) r2 H). pose proof (sqrt_lt_R0 _ H0). auto_derive. split; [lra|]. split; [|auto].
    apply Rgt_not_eq. apply Rmult_lt_0_compat; assumption.
Qed.

(** ** Rows of the triangle *)
Lemma triangle_point_position v0 v1 v2 alpha beta : triangle_point v0 v1 v2 alpha beta = position_3d alpha beta v0 v1 v2.
Proof. unfold triangle_point, position_3d. apply vec_eq; unfold vadd, vsub, vscale; cbn [vx vy vz]; ring. Qed.
Definition row_x (t : normalized_triangle) (beta : R) : R := nt_x0 t + beta * nt_b t.
Definition row_r2 (t : normalized_triangle) (beta : R) : R := (nt_y0 t + beta * nt_c t) ^ 2 + nt_z t ^ 2.
Lemma row_distance v0 v1 v2 p alpha beta : nondegenerate v0 v1 v2 -> let t := normalized v0 v1 v2 p in
  dist3 (triangle_point v0 v1 v2 alpha beta) p = sqrt ((row_x t beta + alpha * nt_a t) * (row_x t beta + alpha * nt_a t) + row_r2 t beta).
Proof.
  intros N t. unfold dist3. rewrite norm_dot, triangle_point_position, offset_distance by exact N. f_equal. unfold row_x, row_r2. fold t. ring.
Qed.
Lemma row_bounds v0 v1 v2 p beta : nondegenerate v0 v1 v2 -> let t := normalized v0 v1 v2 p in
  0 < nt_a t /\ 0 < nt_c t /\ nt_a t * nt_c t = norm (cross (vsub v1 v0) (vsub v2 v0)) /\
  nt_xmin t (beta * nt_c t) = row_x t beta /\ nt_xmax t (beta * nt_c t) = row_x t beta + (1 - beta) * nt_a t.
Proof.
  intros N t. destruct (triangle_frame _ _ _ N) as (_ & _ & _ & _ & P1 & P2 & E). cbv zeta in *.
  assert (A : nt_a t = norm (vsub v1 v0)) by reflexivity. assert (C : nt_c t = dot (vsub v2 v0) (y_axis v0 v1 v2)) by reflexivity.
  rewrite <- A, <- C in *. split; [exact P1|]. split; [exact P2|]. split; [rewrite E; unfold triangle_area; field|].
  unfold nt_xmin, nt_xmax, row_x. split; field; lra.
Qed.
(** The distance of the row to the target is attained. *)
Lemma clear_r2 d v0 v1 v2 p beta : nondegenerate v0 v1 v2 -> 0 < d -> clear_of d v0 v1 v2 p -> 0 <= beta <= 1 -> d * d <= row_r2 (normalized v0 v1 v2 p) beta.
Proof.
  intros N Hd Hc Hb. destruct (row_bounds v0 v1 v2 p beta N) as (Pa & _). cbv zeta in *. set (t := normalized v0 v1 v2 p) in *.
  specialize (Hc (- row_x t beta / nt_a t) beta Hb). rewrite row_distance in Hc by exact N. fold t in Hc.
  replace (row_x t beta + - row_x t beta / nt_a t * nt_a t) with 0 in Hc by (field; lra). replace (0 * 0 + row_r2 t beta) with (row_r2 t beta) in Hc by ring.
  assert (P : 0 <= row_r2 t beta) by (unfold row_r2; pose proof (pow2_ge_0 (nt_y0 t + beta * nt_c t)); pose proof (pow2_ge_0 (nt_z t)); lra).
  rewrite <- (sqrt_sqrt _ P). pose proof (sqrt_pos (row_r2 t beta)). nra.
Qed.
Lemma potential_row v0 v1 v2 p beta : nondegenerate v0 v1 v2 -> let t := normalized v0 v1 v2 p in 1e-12 * 1e-12 <= row_r2 t beta ->
  potential_integrand t (beta * nt_c t) = arcsinh ((row_x t beta + (1 - beta) * nt_a t) / sqrt (row_r2 t beta)) - arcsinh (row_x t beta / sqrt (row_r2 t beta)) /\
  is_RInt (fun alpha => nt_a t * coulomb p (triangle_point v0 v1 v2 alpha beta)) 0 (1 - beta) (potential_integrand t (beta * nt_c t)).
Proof.
  intros N t H. destruct (row_bounds v0 v1 v2 p beta N) as (Pa & Pc & _ & X1 & X2). cbv zeta in *. fold t in X1, X2, Pa, Pc.
  assert (P : 0 < row_r2 t beta) by lra.
  assert (E : potential_integrand t (beta * nt_c t) = arcsinh ((row_x t beta + (1 - beta) * nt_a t) / sqrt (row_r2 t beta)) - arcsinh (row_x t beta / sqrt (row_r2 t beta))).
  { unfold potential_integrand. rewrite X1, X2.
    replace ((beta * nt_c t + nt_y0 t) * (beta * nt_c t + nt_y0 t) + nt_z t * nt_z t) with (row_r2 t beta) by (unfold row_r2; ring).
    destruct (Rlt_dec (sqrt (row_r2 t beta)) 1e-12) as [L|_]; [|reflexivity]. exfalso.
    assert (Q : 1e-12 <= sqrt (row_r2 t beta)) by (rewrite <- (sqrt_square 1e-12) by lra; apply sqrt_le_1_alt; exact H). lra. }
  split; [exact E|]. rewrite E. eapply is_RInt_ext; [|apply inner_potential; exact P]. intros s _. cbv beta. unfold coulomb. rewrite row_distance by exact N. fold t. reflexivity.
Qed.
Lemma flux_row v0 v1 v2 p n beta : nondegenerate v0 v1 v2 -> let t := normalized v0 v1 v2 p in 1e-9 <= row_r2 t beta ->
  let n' := V3 (dot (x_axis v0 v1) n) (dot (y_axis v0 v1 v2) n) (dot (z_axis v0 v1 v2) n) in
  is_RInt (fun alpha => nt_a t * coulomb_flux p n (triangle_point v0 v1 v2 alpha beta)) 0 (1 - beta) (flux_integrand t n' (beta * nt_c t)).
Proof.
  intros N t H n'. destruct (row_bounds v0 v1 v2 p beta N) as (Pa & Pc & _ & X1 & X2). cbv zeta in *. fold t in X1, X2, Pa, Pc.
  assert (P : 0 < row_r2 t beta) by lra.
  set (x := row_x t beta) in *. set (r2 := row_r2 t beta) in *. set (h := beta * nt_c t + nt_y0 t).
  pose proof (inner_flux0 x (nt_a t) r2 (1 - beta) P) as I0. pose proof (inner_flux1 x (nt_a t) r2 (1 - beta) P) as I1.
  assert (E : flux_integrand t n' (beta * nt_c t) =
    vx n' * (1 / sqrt (r2 + (x + (1 - beta) * nt_a t) * (x + (1 - beta) * nt_a t)) - 1 / sqrt (r2 + x * x)) +
    (- vy n' * h + vz n' * nt_z t) * ((x + (1 - beta) * nt_a t) / (r2 * sqrt (r2 + (x + (1 - beta) * nt_a t) * (x + (1 - beta) * nt_a t))) - x / (r2 * sqrt (r2 + x * x)))).
  { unfold flux_integrand. rewrite X1, X2. replace (nt_z t * nt_z t + (beta * nt_c t + nt_y0 t) * (beta * nt_c t + nt_y0 t)) with r2 by (unfold r2, row_r2; ring).
    destruct (Rlt_dec (Rabs r2) 1e-9) as [L|_]; [exfalso; rewrite Rabs_right in L by lra; lra|].
    unfold dot at 1. cbn [vx vy vz]. unfold h. 
    pose proof (sqrt_lt_R0 _ (sum_sq_pos (x + (1 - beta) * nt_a t) r2 P)) as S1. pose proof (sqrt_lt_R0 _ (sum_sq_pos x r2 P)) as S2.
    rewrite (Rplus_comm _ r2) in S1. rewrite (Rplus_comm _ r2) in S2. field. lra. }
  rewrite E. 
  eapply is_RInt_ext; [|apply (is_RInt_plus (V := R_NormedModule)); [apply (is_RInt_scal (V := R_NormedModule)); exact I0|apply (is_RInt_scal (V := R_NormedModule)); exact I1]].
  intros s _. cbv beta. unfold coulomb_flux. rewrite row_distance by exact N. fold t. fold x r2.
  assert (F : dot n (vsub p (triangle_point v0 v1 v2 s beta)) = vx n' * - (x + s * nt_a t) + vy n' * - h + vz n' * nt_z t).
  { destruct (triangle_frame _ _ _ N) as (O & D & _). destruct (offset_coordinates v0 v1 v2 p s beta N) as (Dx & Dy & Dz). cbv zeta in *.
    rewrite <- triangle_point_position in Dx, Dy, Dz. rewrite (frame_dot _ _ _ _ _ O D). fold t in Dx, Dy, Dz.
    assert (G : forall w, dot (vsub p (triangle_point v0 v1 v2 s beta)) w = - dot (vsub (triangle_point v0 v1 v2 s beta) p) w) by (intros w; unfold dot, vsub; cbn [vx vy vz]; ring).
    rewrite !G, Dx, Dy, Dz. unfold n'. cbn [vx vy vz]. rewrite (dot_comm (x_axis v0 v1)), (dot_comm (y_axis v0 v1 v2)), (dot_comm (z_axis v0 v1 v2)).
    unfold h, x, row_x. ring. }
  rewrite F. pose proof (sum_sq_pos (x + s * nt_a t) r2 P) as Q. pose proof (sqrt_lt_R0 _ Q) as S. pose proof (sqrt_sqrt _ (Rlt_le _ _ Q)) as SS.
  set (w := sqrt ((x + s * nt_a t) * (x + s * nt_a t) + r2)) in *. rewrite <- SS. unfold plus, scal; cbn. unfold mult; cbn. clearbody w. field. lra.
Qed.

(** ** The whole triangle *)
Lemma outer_integral (F : R -> R) (G : R -> R) c : 0 < c -> ex_RInt F 0 c -> (forall beta, 0 < beta < 1 -> c * F (beta * c) = G beta) -> RInt F 0 c = RInt G 0 1.
Proof.
  intros Hc HF HG.
  assert (I : is_RInt F (c * 0 + 0) (c * 1 + 0) (RInt F 0 c)).
  { replace (c * 0 + 0) with 0 by ring. replace (c * 1 + 0) with c by ring. apply (RInt_correct (V := R_CompleteNormedModule)). exact HF. }
  apply (is_RInt_comp_lin (V := R_NormedModule)) in I. symmetry. apply is_RInt_unique. eapply is_RInt_ext; [|exact I].
  intros b Hb. rewrite Rmin_left, Rmax_right in Hb by lra. rewrite <- HG by exact Hb. unfold scal; cbn. unfold mult; cbn. do 2 f_equal. ring.
Qed.
Lemma ex_RInt_close (F G : R -> R) c : 0 < c -> (forall y, 0 <= y <= c -> F y = G y) -> (forall y, 0 <= y <= c -> ex_derive G y) -> ex_RInt F 0 c.
Proof.
  intros Hc E D. apply (ex_RInt_ext G).
  - intros y Hy. rewrite Rmin_left, Rmax_right in Hy by lra. symmetry. apply E. lra.
  - apply (ex_RInt_continuous (V := R_CompleteNormedModule)). intros y Hy. rewrite Rmin_left, Rmax_right in Hy by lra.
    apply (ex_derive_continuous (V := R_NormedModule)). apply D. exact Hy.
Qed.
Lemma row_of y c : 0 < c -> y = y / c * c.
Proof. intros H. field. lra. Qed.
Lemma row_range y c : 0 < c -> 0 <= y <= c -> 0 <= y / c <= 1.
Proof. intros H [H1 H2]. split; [apply Rdiv_le_0_compat; lra|]. apply (Rmult_le_reg_r c); [exact H|]. rewrite <- row_of by exact H. lra. Qed.

Theorem potential_exact v0 v1 v2 p : nondegenerate v0 v1 v2 -> clear_of 1e-12 v0 v1 v2 p ->
  is_RInt (potential_integrand (normalized v0 v1 v2 p)) 0 (nt_c (normalized v0 v1 v2 p)) (triangle_integral (coulomb p) v0 v1 v2).
Proof.
  intros N Hc. destruct (row_bounds v0 v1 v2 p 0 N) as (Pa & Pc & Ac & _). cbv zeta in *. set (t := normalized v0 v1 v2 p) in *.
  assert (R2 : forall beta, 0 <= beta <= 1 -> 1e-12 * 1e-12 <= row_r2 t beta) by (intros beta Hb; apply clear_r2; auto; lra).
  assert (Ex : ex_RInt (potential_integrand t) 0 (nt_c t)).
  { apply (ex_RInt_close _ (fun y => arcsinh ((row_x t (y / nt_c t) + (1 - y / nt_c t) * nt_a t) / sqrt (row_r2 t (y / nt_c t))) - arcsinh (row_x t (y / nt_c t) / sqrt (row_r2 t (y / nt_c t))))); [exact Pc| |].
    - intros y Hy. rewrite (row_of y (nt_c t) Pc) at 1. apply potential_row; [exact N|]. apply R2. apply row_range; assumption.
    - intros y Hy. pose proof (R2 (y / nt_c t) (row_range _ _ Pc Hy)) as Q. assert (Q0 : 0 < row_r2 t (y / nt_c t)) by lra.
      pose proof (sqrt_lt_R0 _ Q0) as S.
      apply (ex_derive_minus (V := R_NormedModule)); apply (ex_derive_comp (V := R_NormedModule)); try (eexists; apply arcsinh_derive);
        clear - Q0 S Pc; clearbody t; unfold row_x, row_r2 in *; auto_derive; repeat split; auto; apply Rgt_not_eq; exact S. }
  assert (V : RInt (potential_integrand t) 0 (nt_c t) = triangle_integral (coulomb p) v0 v1 v2).
  { apply outer_integral; [exact Pc|exact Ex|]. intros beta Hb. symmetry. apply is_RInt_unique. rewrite <- Ac.
    destruct (potential_row v0 v1 v2 p beta N) as [_ I]; [apply R2; lra|]. fold t in I.
    apply (is_RInt_scal (V := R_NormedModule) _ _ _ (nt_c t)) in I. eapply is_RInt_ext; [|exact I]. intros s _. unfold scal; cbn. unfold mult; cbn. ring. }
  rewrite <- V. apply (RInt_correct (V := R_CompleteNormedModule)). exact Ex.
Qed.
Theorem flux_exact v0 v1 v2 p n : nondegenerate v0 v1 v2 -> (forall alpha beta, 0 <= beta <= 1 -> 1e-9 <= dist3 (triangle_point v0 v1 v2 alpha beta) p ^ 2) ->
  is_RInt (flux_integrand (normalized v0 v1 v2 p) (V3 (dot (x_axis v0 v1) n) (dot (y_axis v0 v1 v2) n) (dot (z_axis v0 v1 v2) n))) 0 (nt_c (normalized v0 v1 v2 p))
    (triangle_integral (coulomb_flux p n) v0 v1 v2).
Proof.
  intros N Hc. destruct (row_bounds v0 v1 v2 p 0 N) as (Pa & Pc & Ac & _). cbv zeta in *. set (t := normalized v0 v1 v2 p) in *.
  set (n' := V3 (dot (x_axis v0 v1) n) (dot (y_axis v0 v1 v2) n) (dot (z_axis v0 v1 v2) n)).
  assert (R2 : forall beta, 0 <= beta <= 1 -> 1e-9 <= row_r2 t beta).
  { intros beta Hb. specialize (Hc (- row_x t beta / nt_a t) beta Hb). rewrite row_distance in Hc by exact N. fold t in Hc.
    replace (row_x t beta + - row_x t beta / nt_a t * nt_a t) with 0 in Hc by (field; lra). replace (0 * 0 + row_r2 t beta) with (row_r2 t beta) in Hc by ring.
    assert (P : 0 <= row_r2 t beta) by (unfold row_r2; pose proof (pow2_ge_0 (nt_y0 t + beta * nt_c t)); pose proof (pow2_ge_0 (nt_z t)); lra).
    rewrite <- (sqrt_sqrt _ P). simpl in Hc. lra. }
  assert (Ex : ex_RInt (flux_integrand t n') 0 (nt_c t)).
  { apply (ex_RInt_close _ (fun y => let beta := y / nt_c t in let x := row_x t beta in let r2 := row_r2 t beta in let u := x + (1 - beta) * nt_a t in
      vx n' * (1 / sqrt (r2 + u * u) - 1 / sqrt (r2 + x * x)) + (- vy n' * (y + nt_y0 t) + vz n' * nt_z t) * (u / (r2 * sqrt (r2 + u * u)) - x / (r2 * sqrt (r2 + x * x))))); [exact Pc| |].
    - intros y Hy. pose proof (R2 _ (row_range _ _ Pc Hy)) as Q. cbv zeta. destruct (row_bounds v0 v1 v2 p (y / nt_c t) N) as (_ & _ & _ & X1 & X2). cbv zeta in X1, X2. fold t in X1, X2.
      rewrite <- row_of in X1, X2 by exact Pc. unfold flux_integrand. rewrite X1, X2.
      assert (E : nt_z t * nt_z t + (y + nt_y0 t) * (y + nt_y0 t) = row_r2 t (y / nt_c t)).
      { unfold row_r2. rewrite <- row_of by exact Pc. ring. }
      rewrite E. set (r2 := row_r2 t (y / nt_c t)) in *. destruct (Rlt_dec (Rabs r2) 1e-9) as [L|_]; [exfalso; rewrite Rabs_right in L by lra; lra|].
      assert (P : 0 < r2) by lra. set (x := row_x t (y / nt_c t)). set (u := x + (1 - y / nt_c t) * nt_a t).
      pose proof (sqrt_lt_R0 _ (sum_sq_pos u r2 P)) as S1. pose proof (sqrt_lt_R0 _ (sum_sq_pos x r2 P)) as S2. rewrite (Rplus_comm _ r2) in S1. rewrite (Rplus_comm _ r2) in S2.
      unfold dot at 1. cbn [vx vy vz]. field. lra.
    - intros y Hy. pose proof (R2 _ (row_range _ _ Pc Hy)) as Q. cbv zeta. set (beta := y / nt_c t) in *. assert (P : 0 < row_r2 t beta) by lra.
      pose proof (sum_sq_pos (row_x t beta + (1 - beta) * nt_a t) _ P) as A1. pose proof (sum_sq_pos (row_x t beta) _ P) as A2.
      rewrite Rplus_comm in A1. rewrite Rplus_comm in A2. pose proof (sqrt_lt_R0 _ A1) as S1. pose proof (sqrt_lt_R0 _ A2) as S2.
      pose proof (Rmult_lt_0_compat _ _ P S1) as M1. pose proof (Rmult_lt_0_compat _ _ P S2) as M2.
      clear - A1 A2 S1 S2 M1 M2. clearbody t n'. unfold row_x, row_r2, beta in *. auto_derive. repeat split; auto; try (apply Rgt_not_eq; assumption). }
  assert (V : RInt (flux_integrand t n') 0 (nt_c t) = triangle_integral (coulomb_flux p n) v0 v1 v2).
  { apply outer_integral; [exact Pc|exact Ex|]. intros beta Hb. symmetry. apply is_RInt_unique. rewrite <- Ac.
    pose proof (flux_row v0 v1 v2 p n beta N) as I. cbv zeta in I. fold t in I. specialize (I (R2 beta ltac:(lra))). fold n' in I.
    apply (is_RInt_scal (V := R_NormedModule) _ _ _ (nt_c t)) in I. eapply is_RInt_ext; [|exact I]. intros s _. unfold scal; cbn. unfold mult; cbn. ring. }
  rewrite <- V. apply (RInt_correct (V := R_CompleteNormedModule)). exact Ex.
Qed.
