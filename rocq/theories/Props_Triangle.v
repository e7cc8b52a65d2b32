(** Property theorems about charged triangles: C66, C67. *)
From Coq Require Import Reals Lra Lia Psatz.
From Coquelicot Require Import Coquelicot.
From Verif Require Import Base BaseFacts Vec GeomModel QuadModel KronrodFacts TriangleModel TriangleSpec TriangleFacts.
Local Open Scope R_scope.

(** ** C66 Potential of a uniformly charged triangle *)
(** potential_triangle integrates its integrand over the height of the triangle.  When no line through the
    triangle parallel to its first edge passes the target closer than 1e-12, the exact value of that
    integral is the integral of 1 / distance over the surface of the triangle. *)
Theorem C66_potential_partial v0 v1 v2 target :
  cross (vsub v1 v0) (vsub v2 v0) <> vzero -> clear_of 1e-12 v0 v1 v2 target ->
  potential_triangle (fun f lo hi => RInt f lo hi) v0 v1 v2 target = triangle_integral (coulomb target) v0 v1 v2.
Proof. intros N C. apply is_RInt_unique. exact (potential_exact v0 v1 v2 target N C). Qed.
Print Assumptions C66_potential_partial.
(** Also row by row: at each height that is not within 1e-12 of the target the integrand is the potential of
    that row, whatever the other rows. *)
Theorem C66_row v0 v1 v2 target beta :
  cross (vsub v1 v0) (vsub v2 v0) <> vzero -> (forall alpha, 1e-12 <= dist3 (triangle_point v0 v1 v2 alpha beta) target) ->
  let t := normalized v0 v1 v2 target in
  is_RInt (fun alpha => dist3 v1 v0 * coulomb target (triangle_point v0 v1 v2 alpha beta)) 0 (1 - beta) (potential_integrand t (beta * nt_c t)).
Proof.
  intros N C t. apply potential_row; [exact N|]. destruct (row_bounds v0 v1 v2 target beta N) as (Pa & _). cbv zeta in *. fold t in Pa.
  specialize (C (- row_x t beta / nt_a t)). rewrite row_distance in C by exact N. fold t in C.
  replace (row_x t beta + - row_x t beta / nt_a t * nt_a t) with 0 in C by (field; lra). replace (0 * 0 + row_r2 t beta) with (row_r2 t beta) in C by ring.
  assert (P : 0 <= row_r2 t beta) by (unfold row_r2; pose proof (pow2_ge_0 (nt_y0 t + beta * nt_c t)); pose proof (pow2_ge_0 (nt_z t)); lra).
  fold t. rewrite <- (sqrt_sqrt _ P). pose proof (sqrt_pos (row_r2 t beta)). nra.
Qed.
Print Assumptions C66_row.

(** The triangle (-1,0,0), (1,0,0), (0,1,0) scaled by [s], seen from a point above the middle of its first edge. *)
Definition ex_v0 s := V3 (- s) 0 0.
Definition ex_v1 s := V3 s 0 0.
Definition ex_v2 s := V3 0 s 0.
Lemma ex_cross s : cross (vsub (ex_v1 s) (ex_v0 s)) (vsub (ex_v2 s) (ex_v0 s)) = V3 0 0 (2 * s * s).
Proof. unfold cross, vsub, ex_v0, ex_v1, ex_v2. cbn [vx vy vz]. f_equal; ring. Qed.
Lemma ex_nondegenerate s : 0 < s -> cross (vsub (ex_v1 s) (ex_v0 s)) (vsub (ex_v2 s) (ex_v0 s)) <> vzero.
Proof. intros H. rewrite ex_cross. intros E. injection E as E. nra. Qed.
Lemma ex_x_axis s : 0 < s -> x_axis (ex_v0 s) (ex_v1 s) = ex.
Proof.
  intros H. unfold x_axis, normalize_3d. assert (E : norm (vsub (ex_v1 s) (ex_v0 s)) = 2 * s).
  { apply norm_unique; [lra|]. unfold dot, vsub, ex_v0, ex_v1. cbn [vx vy vz]. ring. }
  rewrite E. unfold vsub, ex_v0, ex_v1, ex. cbn [vx vy vz]. f_equal; field; lra.
Qed.
Lemma ex_z_axis s : 0 < s -> z_axis (ex_v0 s) (ex_v1 s) (ex_v2 s) = ez.
Proof.
  intros H. unfold z_axis, normalize_3d. rewrite ex_cross. assert (E : norm (V3 0 0 (2 * s * s)) = 2 * s * s).
  { apply norm_unique; [nra|]. unfold dot. cbn [vx vy vz]. ring. }
  rewrite E. unfold ez. cbn [vx vy vz]. f_equal; field; lra.
Qed.
Lemma ex_normalized s z : 0 < s -> normalized (ex_v0 s) (ex_v1 s) (ex_v2 s) (V3 0 0 z) = mknt (- s) 0 (2 * s) s s z.
Proof.
  intros H. unfold normalized, y_axis. rewrite ex_x_axis, ex_z_axis by exact H. f_equal.
  1-2,4-6: unfold dot, cross, vsub, ex, ez, ex_v0, ex_v1, ex_v2; cbn [vx vy vz]; ring.
  apply norm_unique; [lra|]. unfold dot, vsub, ex_v0, ex_v1. cbn [vx vy vz]. ring.
Qed.
Lemma ex_distance s z alpha beta : Rabs z <= dist3 (triangle_point (ex_v0 s) (ex_v1 s) (ex_v2 s) alpha beta) (V3 0 0 z).
Proof.
  unfold dist3, norm. rewrite <- sqrt_Rsqr_abs. apply sqrt_le_1_alt. unfold triangle_point, ex_v0, ex_v1, ex_v2, vadd, vsub, vscale, Rsqr. cbn [vx vy vz].
  match goal with |- _ <= ?a * ?a + ?b * ?b + ?c * ?c => pose proof (Rle_0_sqr a); pose proof (Rle_0_sqr b); replace (c * c) with (z * z) by ring end.
  unfold Rsqr in *. lra.
Qed.
Example C66_nonvacuous : cross (vsub (ex_v1 1) (ex_v0 1)) (vsub (ex_v2 1) (ex_v0 1)) <> vzero /\ clear_of 1e-12 (ex_v0 1) (ex_v1 1) (ex_v2 1) (V3 0 0 1).
Proof.
  split; [apply ex_nondegenerate; lra|]. intros alpha beta _. eapply Rle_trans; [|apply ex_distance]. rewrite Rabs_right; lra.
Qed.

(** A row in line with the target, entirely on its negative side, gets the negative of its potential: a
    positive charge yields a negative number. *)
Theorem C66_coplanar_row_refuted (t : normalized_triangle) y : nt_z t = 0 -> y = - nt_y0 t -> nt_xmin t y < nt_xmax t y < 0 ->
  exists exact, is_RInt (fun x => / Rabs x) (nt_xmin t y) (nt_xmax t y) exact /\ 0 < exact /\ potential_integrand t y = - exact.
Proof.
  intros Z Y [L1 L2]. set (a := nt_xmin t y) in *. set (b := nt_xmax t y) in *. exists (ln (- a) - ln (- b)). split; [|split].
  - replace (ln (- a) - ln (- b)) with ((fun x => - ln (- x)) b - (fun x => - ln (- x)) a) by ring.
    apply (is_RInt_derive (fun x => - ln (- x)) (fun x => / Rabs x)).
    + intros x Hx. rewrite Rmin_left, Rmax_right in Hx by lra. auto_derive; [lra|]. rewrite Rabs_left by lra. field. lra.
    + intros x Hx. rewrite Rmin_left, Rmax_right in Hx by lra. apply (continuous_comp Rabs Rinv); [apply continuous_Rabs|].
      apply continuous_Rinv. apply Rabs_no_R0. lra.
  - assert (ln (- b) < ln (- a)) by (apply ln_increasing; lra). lra.
  - unfold potential_integrand. fold a b. rewrite Z, Y. replace ((- nt_y0 t + nt_y0 t) * (- nt_y0 t + nt_y0 t) + 0 * 0) with 0 by ring. rewrite sqrt_0.
    destruct (Rlt_dec 0 1e-12) as [_|N]; [|lra]. rewrite !Rabs_left by lra. ring.
Qed.
Print Assumptions C66_coplanar_row_refuted.
(** Such rows exist for a proper triangle. *)
Example C66_refuted_nonvacuous : let t := normalized (V3 (-3) (-1) 0) (V3 (-1) (-1) 0) (V3 (-2) 1 0) vzero in
  nt_z t = 0 /\ 1 = - nt_y0 t /\ 0 < 1 < nt_c t /\ nt_xmin t 1 < nt_xmax t 1 < 0.
Proof.
  assert (X : x_axis (V3 (-3) (-1) 0) (V3 (-1) (-1) 0) = ex).
  { unfold x_axis, normalize_3d. assert (E : norm (vsub (V3 (-1) (-1) 0) (V3 (-3) (-1) 0)) = 2).
    { apply norm_unique; [lra|]. unfold dot, vsub. cbn [vx vy vz]. ring. }
    rewrite E. unfold vsub, ex. cbn [vx vy vz]. f_equal; field. }
  assert (Zx : z_axis (V3 (-3) (-1) 0) (V3 (-1) (-1) 0) (V3 (-2) 1 0) = ez).
  { unfold z_axis, normalize_3d. assert (E : cross (vsub (V3 (-1) (-1) 0) (V3 (-3) (-1) 0)) (vsub (V3 (-2) 1 0) (V3 (-3) (-1) 0)) = V3 0 0 4).
    { unfold cross, vsub. cbn [vx vy vz]. f_equal; ring. }
    rewrite E. assert (E2 : norm (V3 0 0 4) = 4) by (apply norm_unique; [lra|]; unfold dot; cbn [vx vy vz]; ring).
    rewrite E2. unfold ez. cbn [vx vy vz]. f_equal; field. }
  assert (T : normalized (V3 (-3) (-1) 0) (V3 (-1) (-1) 0) (V3 (-2) 1 0) vzero = mknt (-3) (-1) 2 1 2 0).
  { unfold normalized, y_axis. rewrite X, Zx. f_equal.
    1-2,4-6: unfold dot, cross, vsub, ex, ez, vzero; cbn [vx vy vz]; ring.
    apply norm_unique; [lra|]. unfold dot, vsub. cbn [vx vy vz]. ring. }
  rewrite T. cbn [nt_z nt_y0 nt_c nt_x0 nt_a nt_b]. unfold nt_xmin, nt_xmax. cbn [nt_x0 nt_a nt_b nt_c]. repeat split; lra.
Qed.

(** ** C67 Flux of a uniformly charged triangle *)
(** When the target is farther than sqrt 1e-9 = 3.2e-5 from those lines, flux_triangle is the surface
    integral of the normal component of the field of a point charge. *)
Theorem C67_flux_partial v0 v1 v2 target normal :
  cross (vsub v1 v0) (vsub v2 v0) <> vzero ->
  (forall alpha beta, 0 <= beta <= 1 -> 1e-9 <= dist3 (triangle_point v0 v1 v2 alpha beta) target ^ 2) ->
  flux_triangle (fun f lo hi => RInt f lo hi) v0 v1 v2 target normal = triangle_integral (coulomb_flux target normal) v0 v1 v2.
Proof. intros N C. apply is_RInt_unique. exact (flux_exact v0 v1 v2 target normal N C). Qed.
Print Assumptions C67_flux_partial.
Example C67_nonvacuous : cross (vsub (ex_v1 1) (ex_v0 1)) (vsub (ex_v2 1) (ex_v0 1)) <> vzero /\
  forall alpha beta, 0 <= beta <= 1 -> 1e-9 <= dist3 (triangle_point (ex_v0 1) (ex_v1 1) (ex_v2 1) alpha beta) (V3 0 0 1) ^ 2.
Proof.
  split; [apply ex_nondegenerate; lra|]. intros alpha beta _. pose proof (ex_distance 1 1 alpha beta) as D. rewrite Rabs_right in D by lra.
  set (d := dist3 _ _) in *. clearbody d. simpl. nra.
Qed.
Lemma ex_flux_zero s y : 0 < s -> s * s + s * s < 1e-9 -> 0 <= y <= s -> flux_integrand (mknt (- s) 0 (2 * s) s s s) ez y = 0.
Proof.
  intros H L Hy. unfold flux_integrand, nt_xmin, nt_xmax. cbn [nt_x0 nt_y0 nt_a nt_b nt_c nt_z].
  replace (- s + y / s * s) with (- (s - y)) by (field; lra). replace (- s + 2 * s + y / s * (s - 2 * s)) with (s - y) by (field; lra).
  assert (Q : s * s + (y + 0) * (y + 0) < 1e-9) by nra. assert (Q0 : 0 <= s * s + (y + 0) * (y + 0)) by nra.
  destruct (Rlt_dec (Rabs (s * s + (y + 0) * (y + 0))) 1e-9) as [_|N]; [|exfalso; apply N; rewrite Rabs_right by lra; exact Q].
  unfold dot, ez. cbn [vx vy vz]. replace (- (s - y) * - (s - y) - (s - y) * (s - y)) with 0 by ring. unfold Rdiv. ring.
Qed.
Lemma ex_scale s : 0 < s -> triangle_integral (coulomb_flux (V3 0 0 s) ez) (ex_v0 s) (ex_v1 s) (ex_v2 s) =
  triangle_integral (coulomb_flux (V3 0 0 1) ez) (ex_v0 1) (ex_v1 1) (ex_v2 1).
Proof.
  intros H. unfold triangle_integral. apply RInt_ext. intros beta _. apply RInt_ext. intros alpha _. rewrite !ex_cross.
  assert (E : forall k, 0 < k -> norm (V3 0 0 (2 * k * k)) = 2 * k * k) by (intros k Hk; apply norm_unique; [nra|]; unfold dot; cbn [vx vy vz]; ring).
  rewrite !E by lra. unfold coulomb_flux, dist3.
  set (q := triangle_point (ex_v0 1) (ex_v1 1) (ex_v2 1) alpha beta).
  assert (Q : triangle_point (ex_v0 s) (ex_v1 s) (ex_v2 s) alpha beta = vscale s q).
  { unfold q, triangle_point, ex_v0, ex_v1, ex_v2. apply vec_eq; unfold vadd, vsub, vscale; cbn [vx vy vz]; ring. }
  rewrite Q. replace (vsub (vscale s q) (V3 0 0 s)) with (vscale s (vsub q (V3 0 0 1))) by (apply vec_eq; unfold vsub, vscale; cbn [vx vy vz]; ring).
  rewrite norm_scale, (Rabs_right s) by lra.
  replace (dot ez (vsub (V3 0 0 s) (vscale s q))) with (s * dot ez (vsub (V3 0 0 1) q)) by (unfold dot, vsub, vscale, ez; cbn [vx vy vz]; ring).
  pose proof (ex_distance 1 1 alpha beta) as D. fold q in D. rewrite Rabs_right in D by lra. unfold dist3 in D. match goal with |- ?l = ?r => change (@eq R l r) end. field. lra.
Qed.
Lemma ex_positive : 0 < triangle_integral (coulomb_flux (V3 0 0 1) ez) (ex_v0 1) (ex_v1 1) (ex_v2 1).
Proof.
  destruct C67_nonvacuous as [N C]. pose proof (flux_exact _ _ _ _ ez N C) as I.
  rewrite ex_normalized in I by lra. unfold y_axis in I. rewrite ex_x_axis, ex_z_axis in I by lra. cbn [nt_c] in I.
  apply Rlt_le_trans with (1 / 4); [lra|].
  assert (J : is_RInt (fun y => (1 - y) / 2) 0 1 (1 / 4)).
  { assert (Q : is_RInt (fun y => (1 - y) / 2) 0 1 ((1 / 2 - 1 * 1 / 4) - (0 / 2 - 0 * 0 / 4))).
    { apply (is_RInt_derive_all (fun y => y / 2 - y * y / 4)); intros; auto_derive; auto. field. }
    replace (1 / 4) with ((1 / 2 - 1 * 1 / 4) - (0 / 2 - 0 * 0 / 4)) by field. exact Q. }
  eapply is_RInt_le; [|exact J|exact I|]; [lra|]. intros y Hy. unfold flux_integrand, nt_xmin, nt_xmax. cbn [nt_x0 nt_y0 nt_a nt_b nt_c nt_z].
  replace (- (1) + y / 1 * 1) with (- (1 - y)) by field. replace (- (1) + 2 * 1 + y / 1 * (1 - 2 * 1)) with (1 - y) by field.
  set (r2 := 1 * 1 + (y + 0) * (y + 0)). assert (R1 : 1 <= r2 <= 2) by (unfold r2; nra).
  destruct (Rlt_dec (Rabs r2) 1e-9) as [L|_]; [exfalso; rewrite Rabs_right in L by lra; lra|].
  replace (- (1 - y) * - (1 - y)) with ((1 - y) * (1 - y)) by ring. set (w := sqrt (r2 + (1 - y) * (1 - y))).
  assert (W0 : 0 < w) by (apply sqrt_lt_R0; nra).
  assert (W : w <= 2) by (unfold w; rewrite <- (sqrt_square 2) by lra; apply sqrt_le_1_alt; nra).
  unfold dot, cross, ez, ex. cbn [vx vy vz].
  match goal with |- _ <= ?rhs => replace rhs with (2 * (1 - y) * / (r2 * w)) by (field; lra) end.
  assert (P : 0 < r2 * w) by nra. assert (P4 : r2 * w <= 4) by nra.
  assert (/ 4 <= / (r2 * w)) by (apply Rinv_le_contravar; assumption). nra.
Qed.
(** The limit is absolute: for geometry of a few micrometres, in metres, the same function (with the actual
    integrator) returns 0 straight above a triangle, whereas the flux is the same positive number for
    every size of the figure. *)
Theorem C67_small_geometry_refuted s : 0 < s -> s * s + s * s < 1e-9 ->
  (exists fuel, kronrod_adaptive fuel (flux_integrand (normalized (ex_v0 s) (ex_v1 s) (ex_v2 s) (V3 0 0 s)) ez) 0 s 1e-9 1e-9 = Some 0) /\
  flux_triangle (fun f lo hi => RInt f lo hi) (ex_v0 s) (ex_v1 s) (ex_v2 s) (V3 0 0 s) ez = 0 /\
  triangle_integral (coulomb_flux (V3 0 0 s) ez) (ex_v0 s) (ex_v1 s) (ex_v2 s) = triangle_integral (coulomb_flux (V3 0 0 1) ez) (ex_v0 1) (ex_v1 1) (ex_v2 1) /\
  0 < triangle_integral (coulomb_flux (V3 0 0 s) ez) (ex_v0 s) (ex_v1 s) (ex_v2 s).
Proof.
  intros H L. assert (Z : forall y, 0 <= y <= s -> flux_integrand (normalized (ex_v0 s) (ex_v1 s) (ex_v2 s) (V3 0 0 s)) ez y = 0).
  { intros y Hy. rewrite ex_normalized by exact H. apply ex_flux_zero; assumption. }
  split; [|split; [|split; [apply ex_scale; exact H|rewrite ex_scale by exact H; exact ex_positive]]].
  - exists 2%nat. unfold kronrod_adaptive. cbn [kronrod_loop]. set (f := flux_integrand _ ez) in *.
    rewrite (proj2 (Rltb_true 0 s) H). replace ((s - 0) / 2) with (s / 2) by field. replace ((0 + s) / 2) with (s / 2) by field.
    assert (Zr : forall x, s / 2 - s / 2 <= x <= s / 2 + s / 2 -> Rabs (f x) <= 0) by (intros x Hx; rewrite Z by lra; rewrite Rabs_R0; lra).
    rewrite (accept_small f 1e-9 1e-9 (s / 2) (s / 2) 0) by (auto; lra).
    pose proof (k15_bound f (s / 2) (s / 2) 0 ltac:(lra) Zr) as B. replace (3 * (s / 2) * 0) with 0 in B by ring.
    assert (K : k15 f (s / 2) (s / 2) = 0) by (destruct (Req_EM_T (k15 f (s / 2) (s / 2)) 0) as [E|E]; [exact E|]; apply Rabs_pos_lt in E; lra).
    rewrite K. rewrite (proj2 (Rltb_false s s)) by lra. f_equal. ring.
  - unfold flux_triangle, y_axis. rewrite ex_x_axis, ex_z_axis by exact H.
    replace (V3 (dot ex ez) (dot (cross ez ex) ez) (dot ez ez)) with ez by (unfold dot, cross, ex, ez; cbn [vx vy vz]; f_equal; ring).
    rewrite ex_normalized by exact H. cbn [nt_c]. transitivity (RInt (fun _ => 0) 0 s).
    + apply RInt_ext. intros y Hy. rewrite Rmin_left, Rmax_right in Hy by lra. apply ex_flux_zero; try assumption. lra.
    + rewrite RInt_const. unfold scal; cbn. unfold mult; cbn. ring.
Qed.
Print Assumptions C67_small_geometry_refuted.
Example C67_refuted_nonvacuous : 0 < 1e-5 /\ 1e-5 * 1e-5 + 1e-5 * 1e-5 < 1e-9.
Proof. split; lra. Qed.
