(** Property theorems about surfaces: C22, C23, C55. *)
From Coq Require Import Reals Lra Lia Psatz.
From Coquelicot Require Import Coquelicot.
From Verif Require Import Base BaseFacts Vec GeomModel GeomFacts QuadModel KronrodFacts PathModel PathSpec PathFacts PathOpsFacts PolyFacts SurfaceModel SurfaceFacts.
Local Open Scope R_scope.

(** ** C22 Surfaces of revolution *)
(** Every point keeps its coordinate along the axis and its distance to the axis, and the surface
    starts at the path, for all three axes. *)
Theorem C22_revolve_keeps_distance a r_avg angle p u q : r_avg <> 0 -> pfun p u = Ok q ->
  let s := revolve_about a r_avg angle p in
  slen1 s = plen p /\ sbps1 s = pbps p /\ slen2 s = 2 * PI * r_avg /\
  sfun s u 0 = Ok q /\
  forall v, exists q', sfun s u v = Ok q' /\ dot q' (unit_of a) = dot q (unit_of a) /\
    axis_dist a q' = axis_dist a q.
Proof.
  intros Hr Hq s. split; [destruct a; reflexivity|]. split; [destruct a; reflexivity|].
  split; [destruct a; reflexivity|]. split.
  - unfold s. rewrite (revolve_is_rotation a r_avg angle p u 0 q Hr Hq).
    replace (sense a * (0 / (2 * PI * r_avg) * angle)) with 0 by (unfold Rdiv; ring).
    rewrite rodrigues_0. reflexivity.
  - intros v. eexists. split; [exact (revolve_is_rotation a r_avg angle p u v q Hr Hq)|]. apply rodrigues_axial.
Qed.
Print Assumptions C22_revolve_keeps_distance.

(** About x and z the surface turns like rotate and ends at the path rotated by [angle]. *)
Theorem C22_revolve_turns_like_rotate_partial a r_avg angle p u q : a <> AxisY -> r_avg <> 0 -> pfun p u = Ok q ->
  let s := revolve_about a r_avg angle p in
  (forall v, v / slen2 s * angle <> 0 ->
     exists F, rotate_about a (v / slen2 s * angle) vzero = Ok F /\ sfun s u v = F q) /\
  (angle <> 0 -> exists F, rotate_about a angle vzero = Ok F /\ sfun s u (slen2 s) = F q).
Proof.
  intros Ha Hr Hq s. pose proof PI_RGT_0 as HP.
  assert (L : slen2 s = 2 * PI * r_avg) by (destruct a; reflexivity). rewrite L.
  assert (G : forall v, v / (2 * PI * r_avg) * angle <> 0 ->
     exists F, rotate_about a (v / (2 * PI * r_avg) * angle) vzero = Ok F /\ sfun s u v = F q).
  { intros v Hv. destruct (rotate_rodrigues a _ vzero Hv) as (F & EF & HF). exists F. split; [exact EF|].
    rewrite HF. unfold s. rewrite (revolve_is_rotation a r_avg angle p u v q Hr Hq).
    replace (sense a) with 1 by (destruct a; [reflexivity|congruence|reflexivity]). rewrite Rmult_1_l. reflexivity. }
  split; [exact G|]. intros Hang. specialize (G (2 * PI * r_avg)).
  replace (2 * PI * r_avg / (2 * PI * r_avg) * angle) with angle in G by (field; split; lra).
  apply G. exact Hang.
Qed.
Print Assumptions C22_revolve_turns_like_rotate_partial.

(** About y it turns the other way: it ends at the path rotated by [- angle]. *)
Theorem C22_revolve_y_turns_backwards_partial r_avg angle p u q : angle <> 0 -> r_avg <> 0 -> pfun p u = Ok q ->
  exists F, rotate_about AxisY (- angle) vzero = Ok F /\
    sfun (revolve_y r_avg angle p) u (slen2 (revolve_y r_avg angle p)) = F q.
Proof.
  intros Ha Hr Hq. pose proof PI_RGT_0.
  destruct (rotate_rodrigues AxisY (- angle) vzero ltac:(lra)) as (F & EF & HF).
  exists F. split; [exact EF|]. rewrite HF.
  change (revolve_y r_avg angle p) with (revolve_about AxisY r_avg angle p).
  rewrite (revolve_is_rotation AxisY r_avg angle p u _ q Hr Hq).
  change (slen2 (revolve_about AxisY r_avg angle p)) with (2 * PI * r_avg).
  f_equal. f_equal. simpl. field. split; lra.
Qed.
Print Assumptions C22_revolve_y_turns_backwards_partial.

Theorem C22_revolve_y_refuted :
  exists p r_avg angle u q F, pfun p u = Ok q /\ 0 < r_avg /\ 0 < angle < 2 * PI /\
    rotate_about AxisY angle vzero = Ok F /\
    sfun (revolve_y r_avg angle p) u (slen2 (revolve_y r_avg angle p)) <> F q.
Proof.
  pose proof PI_RGT_0 as HP.
  set (a := V3 1 0 0). set (b := V3 2 0 0).
  assert (Hab : a <> b) by (intros E; injection E; intros; lra).
  destruct (rotate_rodrigues AxisY (PI / 2) vzero ltac:(lra)) as (F & EF & HF).
  exists (line a b), (3 / 2), (PI / 2), 0, a, F.
  assert (Hq : pfun (line a b) 0 = Ok a) by (rewrite line_eval, on_line_0 by exact Hab; reflexivity).
  split; [exact Hq|]. split; [lra|]. split; [lra|]. split; [exact EF|].
  destruct (C22_revolve_y_turns_backwards_partial (3 / 2) (PI / 2) (line a b) 0 a ltac:(lra) ltac:(lra) Hq) as (G & EG & HG).
  rewrite HG, HF. destruct (rotate_rodrigues AxisY (- (PI / 2)) vzero ltac:(lra)) as (G' & EG' & HG').
  rewrite EG in EG'. injection EG' as <-. rewrite HG'. intros E. injection E.
  rewrite cos_neg, sin_neg, cos_PI2, sin_PI2. unfold a, ey, vzero; simpl. intros; lra.
Qed.
Print Assumptions C22_revolve_y_refuted.

Example C22_nonvacuous :
  let p := line (V3 1 0 0) (V3 2 0 5) in
  AxisZ <> AxisY /\ 3 / 2 <> 0 /\ pfun p 0 = Ok (V3 1 0 0).
Proof.
  assert (Hab : V3 1 0 0 <> V3 2 0 5) by (intros E; injection E; intros; lra).
  cbv zeta. split; [discriminate|]. split; [lra|]. rewrite line_eval, on_line_0 by exact Hab. reflexivity.
Qed.

(** ** C23 Surfaces from boundaries, extrusion, sphere and disk *)
Theorem C23_extrude vector p u q v : vector <> vzero -> pfun p u = Ok q ->
  let s := extrude vector p in
  slen1 s = plen p /\ slen2 s = norm vector /\ sbps1 s = pbps p /\
  sfun s u v = Ok (vadd q (vscale (v / norm vector) vector)) /\
  sfun s u 0 = Ok q /\ sfun s u (slen2 s) = Ok (vadd q vector).
Proof.
  intros Hv Hq s.
  assert (Hn : norm vector <> 0) by (intros E; apply Hv, norm_zero, E).
  split; [reflexivity|]. split; [reflexivity|]. split; [reflexivity|].
  unfold s, extrude; cbn [sfun slen2]. rewrite Hq. cbn [bind]. rewrite !Rdiv_py_ok by exact Hn. cbn [bind].
  split; [reflexivity|]. split; f_equal; apply vec_eq; simpl; field; exact Hn.
Qed.
Print Assumptions C23_extrude.

Theorem C23_extrude_by_path p2 p p0 : starting_point p2 = Ok p0 ->
  exists s, extrude_by_path p2 p = Ok s /\ slen1 s = plen p /\ slen2 s = plen p2 /\
    sbps1 s = pbps p /\ sbps2 s = pbps p2 /\
    forall u v q q2, pfun p u = Ok q -> pfun p2 v = Ok q2 -> sfun s u v = Ok (vadd q (vsub q2 p0)).
Proof.
  intros H. unfold extrude_by_path. rewrite H. cbn [bind]. eexists. split; [reflexivity|].
  cbn [slen1 slen2 sbps1 sbps2 sfun]. repeat (split; [reflexivity|]).
  intros u v q q2 Hq Hq2. rewrite Hq, Hq2. cbn [bind]. f_equal. vec_ring.
Qed.
Print Assumptions C23_extrude_by_path.

Theorem C23_spanned_by_paths p1 p2 s1 s2 e1 e2 :
  starting_point p1 = Ok s1 -> starting_point p2 = Ok s2 -> endpoint p1 = Ok e1 -> endpoint p2 = Ok e2 ->
  0 < plen p1 -> 0 < plen p2 -> s1 <> s2 \/ e1 <> e2 ->
  exists s, spanned_by_paths p1 p2 = Ok s /\ slen1 s = Rmax (plen p1) (plen p2) /\ 0 < slen2 s /\
    (* a point at the fraction k of both paths, and the straight line between the two points *)
    (forall k w q1 q2, pfun p1 (k * plen p1) = Ok q1 -> pfun p2 (k * plen p2) = Ok q2 ->
       sfun s (k * slen1 s) (w * slen2 s) = Ok (vadd (vscale (1 - w) q1) (vscale w q2))) /\
    (forall k q1 q2, pfun p1 (k * plen p1) = Ok q1 -> pfun p2 (k * plen p2) = Ok q2 ->
       sfun s (k * slen1 s) 0 = Ok q1 /\ sfun s (k * slen1 s) (slen2 s) = Ok q2) /\
    sorted (sbps1 s) /\
    (forall b, In b (sbps1 s) <->
       exists k, b = k * slen1 s /\ (In (k * plen p1) (pbps p1) \/ In (k * plen p2) (pbps p2))).
Proof.
  intros S1 S2 E1 E2 L1 L2 Hne.
  assert (LM : 0 < Rmax (plen p1) (plen p2)) by (eapply Rlt_le_trans; [exact L1|apply Rmax_l]).
  set (l2 := (norm (vsub s1 s2) + norm (vsub e1 e2)) / 2).
  assert (Hl2 : 0 < l2).
  { unfold l2. pose proof (norm_nonneg (vsub s1 s2)). pose proof (norm_nonneg (vsub e1 e2)).
    destruct Hne as [Hn|Hn]; apply dist_pos in Hn; unfold dist3 in Hn; lra. }
  unfold spanned_by_paths. rewrite S1, S2, E1, E2. cbn [bind].
  assert (B : forall p, 0 < plen p -> mapM (fun b => Rdiv_py (Rmax (plen p1) (plen p2) * b) (plen p)) (pbps p) =
            Ok (map (fun b => Rmax (plen p1) (plen p2) * b / plen p) (pbps p))).
  { intros p Hp. apply mapM_pure. intros b _. apply Rdiv_py_ok. lra. }
  rewrite (B p1 L1), (B p2 L2). cbn [bind]. eexists. split; [reflexivity|].
  cbn [slen1 slen2 sfun sbps1]. fold l2. split; [reflexivity|]. split; [exact Hl2|].
  assert (G : forall k w q1 q2, pfun p1 (k * plen p1) = Ok q1 -> pfun p2 (k * plen p2) = Ok q2 ->
     (k0 <- Rdiv_py (k * Rmax (plen p1) (plen p2)) (Rmax (plen p1) (plen p2)) ;;
      q3 <- pfun p1 (k0 * plen p1) ;; q4 <- pfun p2 (k0 * plen p2) ;;
      w0 <- Rdiv_py (w * l2) l2 ;; Ok (vadd (vscale (1 - w0) q3) (vscale w0 q4)))
     = Ok (vadd (vscale (1 - w) q1) (vscale w q2))).
  { intros k w q1 q2 H1 H2. rewrite Rdiv_py_ok by lra. cbn [bind].
    replace (k * Rmax (plen p1) (plen p2) / Rmax (plen p1) (plen p2)) with k by (field; lra).
    rewrite H1, H2. cbn [bind]. rewrite Rdiv_py_ok by lra. cbn [bind].
    replace (w * l2 / l2) with w by (field; lra). reflexivity. }
  split; [exact G|]. split; [|split].
  - intros k q1 q2 H1 H2. pose proof (G k 0 q1 q2 H1 H2) as G0. pose proof (G k 1 q1 q2 H1 H2) as G1.
    rewrite Rmult_0_l in G0. rewrite Rmult_1_l in G1. rewrite G0, G1. split; f_equal; vec_ring.
  - apply Rsorted_sorted.
  - intros b. split.
    + intros Hb. apply (Permutation.Permutation_in _ (Rsorted_perm _)) in Hb. apply in_app_iff in Hb.
      exists (b / Rmax (plen p1) (plen p2)). split; [field; lra|].
      destruct Hb as [Hb|Hb]; [left|right]; apply in_map_iff in Hb; destruct Hb as (x & <- & Hx).
      * replace (Rmax (plen p1) (plen p2) * x / plen p1 / Rmax (plen p1) (plen p2) * plen p1) with x by (field; lra). exact Hx.
      * replace (Rmax (plen p1) (plen p2) * x / plen p2 / Rmax (plen p1) (plen p2) * plen p2) with x by (field; lra). exact Hx.
    + intros (k & -> & Hk). apply (Permutation.Permutation_in _ (Permutation.Permutation_sym (Rsorted_perm _))).
      apply in_app_iff. destruct Hk as [Hk|Hk]; [left|right]; apply in_map_iff.
      * exists (k * plen p1). split; [field; lra|exact Hk].
      * exists (k * plen p2). split; [field; lra|exact Hk].
Qed.
Print Assumptions C23_spanned_by_paths.

(** The sphere: all its points have norm [radius] and every point of that norm is on it. *)
Theorem C23_sphere radius : 0 < radius ->
  let s := sphere radius in
  (forall u v, exists q, sfun s u v = Ok q /\ norm q = radius) /\
  (forall q, norm q = radius -> exists u v, 0 <= u <= slen1 s /\ 0 <= v <= slen2 s /\ sfun s u v = Ok q).
Proof.
  intros Hr s. split.
  - intros u v. unfold s, sphere; cbn [sfun]. rewrite !Rdiv_py_ok by lra. cbn [bind]. eexists. split; [reflexivity|].
    apply norm_unique; [lra|]. unfold dot; cbn [vx vy vz].
    set (th := v / radius). set (ph := u / radius).
    transitivity (radius * radius * (sin th * sin th * (sin ph * sin ph + cos ph * cos ph) + cos th * cos th)); [ring|].
    rewrite sin2_cos2', Rmult_1_r, sin2_cos2'. ring.
  - intros [x y z] Hn. pose proof PI_RGT_0 as HP.
    assert (Hsq : x * x + y * y + z * z = radius * radius).
    { pose proof (norm_sq (V3 x y z)) as E. rewrite Hn in E. unfold dot in E; simpl in E. lra. }
    set (c := z / radius).
    assert (Hc : -1 <= c <= 1).
    { unfold c. assert (z * z <= radius * radius) by nra.
      split; apply Rmult_le_reg_r with radius; try lra; replace (z / radius * radius) with z by (field; lra); nra. }
    assert (Hcos : cos (acos c) = c) by (apply cos_acos; exact Hc).
    pose proof (acos_bound c) as Hb.
    assert (Hsin : radius * sin (acos c) = sqrt (x * x + y * y)).
    { assert (0 <= sin (acos c)) by (apply sin_ge_0; lra).
      symmetry. apply sqrt_lem_1; [nra|nra|].
      pose proof (sin2_cos2' (acos c)) as T. rewrite Hcos in T.
      transitivity (radius * radius * (sin (acos c) * sin (acos c))); [ring|].
      replace (sin (acos c) * sin (acos c)) with (1 - c * c) by lra. unfold c. 
      transitivity (radius * radius - z * z); [field; lra|lra]. }
    destruct (polar_exists x y) as (phi & Hphi & P1 & P2).
    exists (radius * phi), (radius * acos c). unfold s, sphere; cbn [slen1 slen2 sfun].
    split; [nra|]. split; [nra|]. rewrite !Rdiv_py_ok by lra. cbn [bind].
    replace (radius * phi / radius) with phi by (field; lra).
    replace (radius * acos c / radius) with (acos c) by (field; lra).
    rewrite Hsin, Hcos, P1, P2. f_equal. apply vec_eq; simpl; try reflexivity. unfold c. field. lra.
Qed.
Print Assumptions C23_sphere.

(** Disks: exactly the points of the plane within [radius] of the centre. *)
Definition disk (a : axis) : R -> R -> R -> R -> result surface :=
  match a with AxisX => disk_yz | AxisY => disk_xz | AxisZ => disk_xy end.
Definition disk_centre (a : axis) (c d : R) : vec3 :=
  match a with AxisX => V3 0 c d | AxisY => V3 c 0 d | AxisZ => V3 c d 0 end.

Lemma disk_eval a r_avg c d radius u v : 0 < radius -> r_avg <> 0 ->
  exists s, disk a r_avg c d radius = Ok s /\ slen1 s = radius /\ slen2 s = 2 * PI * r_avg /\
    sfun s u v = Ok (vadd (match a with
                     | AxisX => V3 0 (u * cos (v / r_avg)) (u * sin (v / r_avg))
                     | AxisY => V3 (u * cos (v / r_avg)) 0 (u * sin (v / r_avg))
                     | AxisZ => V3 (u * cos (v / r_avg)) (u * sin (v / r_avg)) 0 end) (disk_centre a c d)).
Proof.
  intros Hr Ha. pose proof PI_RGT_0 as HP.
  set (dir := match a with AxisX => V3 0 radius 0 | _ => V3 radius 0 0 end).
  assert (Hd : vzero <> dir).
  { unfold dir, vzero. destruct a; intros E; injection E; intros; lra. }
  assert (Hdn : norm (vsub vzero dir) = radius).
  { apply norm_unique; [lra|]. unfold dir, vzero, dot, vsub. destruct a; simpl; ring. }
  assert (Hq : pfun (line vzero dir) u = Ok (vscale (u / radius) dir)).
  { rewrite line_eval by exact Hd. f_equal. unfold on_line. rewrite Hdn. unfold vzero. vec_ring. }
  assert (E : disk a r_avg c d radius =
    Ok (surf_move (disk_centre a c d) (revolve_about a r_avg (2 * PI) (line vzero dir)))).
  { unfold disk, disk_yz, disk_xz, disk_xy, dir, disk_centre.
    destruct a; rewrite (proj2 (Rltb_true 0 radius)) by exact Hr; reflexivity. }
  eexists. split; [exact E|]. unfold surf_move, surf_map; cbn [slen1 slen2 sfun].
  split; [destruct a; exact Hdn|]. split; [destruct a; reflexivity|].
  rewrite (revolve_is_rotation a r_avg (2 * PI) (line vzero dir) u v _ Ha Hq). cbn [bind].
  replace (v / (2 * PI * r_avg) * (2 * PI)) with (v / r_avg) by (field; split; lra).
  f_equal. unfold move. f_equal. unfold rodrigues, dir, vzero, unit_of, ex, ey, ez, cross, dot.
  destruct a; cbn [sense]; rewrite ?Rmult_1_l; try replace (-1 * (v / r_avg)) with (- (v / r_avg)) by ring;
    rewrite ?cos_neg, ?sin_neg; apply vec_eq; simpl; field; lra.
Qed.

Theorem C23_disk a r_avg c d radius : 0 < radius -> 0 < r_avg ->
  exists s, disk a r_avg c d radius = Ok s /\
  (forall u v, 0 <= u <= slen1 s -> exists q, sfun s u v = Ok q /\
     dist3 q (disk_centre a c d) = u /\ u <= radius /\ dot (vsub q (disk_centre a c d)) (unit_of a) = 0) /\
  (forall q, dist3 q (disk_centre a c d) <= radius -> dot (vsub q (disk_centre a c d)) (unit_of a) = 0 ->
     exists u v, 0 <= u <= slen1 s /\ 0 <= v <= slen2 s /\ sfun s u v = Ok q).
Proof.
  intros Hr Ha. pose proof PI_RGT_0 as HP.
  destruct (disk_eval a r_avg c d radius 0 0 Hr ltac:(lra)) as (s & E & L1 & L2 & _).
  exists s. split; [exact E|].
  assert (G : forall u v, sfun s u v = Ok (vadd (match a with
                     | AxisX => V3 0 (u * cos (v / r_avg)) (u * sin (v / r_avg))
                     | AxisY => V3 (u * cos (v / r_avg)) 0 (u * sin (v / r_avg))
                     | AxisZ => V3 (u * cos (v / r_avg)) (u * sin (v / r_avg)) 0 end) (disk_centre a c d))).
  { intros u v. destruct (disk_eval a r_avg c d radius u v Hr ltac:(lra)) as (s' & E' & _ & _ & F).
    rewrite E in E'. injection E' as <-. exact F. }
  split.
  - intros u v Hu. eexists. split; [apply G|]. rewrite L1 in Hu. split; [|split; [lra|]].
    + unfold dist3. apply norm_unique; [lra|]. pose proof (sin2_cos2' (v / r_avg)) as T.
      destruct a; unfold dot, vsub, vadd, disk_centre; cbn [vx vy vz];
        transitivity (u * u * (sin (v / r_avg) * sin (v / r_avg) + cos (v / r_avg) * cos (v / r_avg)));
        try ring; rewrite T; ring.
    + destruct a; unfold dot, vsub, vadd, disk_centre, unit_of, ex, ey, ez; simpl; ring.
  - intros [x y z] Hd Hp. rewrite L1, L2.
    set (px := match a with AxisX => y - c | _ => x - c end).
    set (py := match a with AxisZ => y - d | _ => z - d end).
    assert (Hdist : dist3 (V3 x y z) (disk_centre a c d) = sqrt (px * px + py * py)).
    { unfold dist3. rewrite norm_dot. f_equal.
      destruct a; unfold dot, vsub, disk_centre, unit_of, ex, ey, ez, px, py in *; simpl in *;
        [replace (x - 0) with 0 by lra|replace (y - 0) with 0 by lra|replace (z - 0) with 0 by lra]; ring. }
    destruct (polar_exists px py) as (phi & Hphi & P1 & P2).
    exists (sqrt (px * px + py * py)), (r_avg * phi). split; [split; [apply sqrt_pos|lra]|].
    split; [nra|]. rewrite G. replace (r_avg * phi / r_avg) with phi by (field; lra). rewrite P1, P2.
    f_equal. destruct a; unfold disk_centre, px, py, dot, vsub, unit_of, ex, ey, ez in *; apply vec_eq; simpl in *; lra.
Qed.
Print Assumptions C23_disk.

Theorem C23_disk_needs_a_radius a r_avg c d radius : radius <= 0 -> disk a r_avg c d radius = Err AssertionError.
Proof.
  intros H. destruct a; unfold disk, disk_yz, disk_xz, disk_xy; rewrite (proj2 (Rltb_false 0 radius)) by exact H; reflexivity.
Qed.
Print Assumptions C23_disk_needs_a_radius.

(** from_boundary_paths: an edge is reproduced when it is straight (traversed at constant speed). *)
Definition straight (p : path) (a b : vec3) : Prop :=
  forall k, 0 <= k <= 1 -> pfun p (k * plen p) = Ok (vadd (vscale (1 - k) a) (vscale k b)).

Theorem C23_from_boundary_paths_partial p1 p2 p3 p4 a b c d :
  (* four straight edges a-b-c-d-a of positive length, as lines without breakpoints *)
  straight p1 a b -> straight p2 b c -> straight p3 c d -> straight p4 d a ->
  0 < plen p1 -> 0 < plen p2 -> 0 < plen p3 -> 0 < plen p4 ->
  pbps p1 = [] -> pbps p2 = [] -> pbps p3 = [] -> pbps p4 = [] ->
  exists s, from_boundary_paths p1 p2 p3 p4 = Ok s /\
    forall k, 0 <= k <= 1 ->
      sfun s (k * slen1 s) 0 = pfun p1 (k * plen p1) /\
      sfun s (slen1 s) (k * slen2 s) = pfun p2 (k * plen p2) /\
      sfun s (k * slen1 s) (slen2 s) = pfun p3 ((1 - k) * plen p3) /\
      sfun s 0 (k * slen2 s) = pfun p4 ((1 - k) * plen p4).
Proof.
  intros S1 S2 S3 S4 L1 L2 L3 L4 B1 B2 B3 B4. unfold from_boundary_paths. rewrite B1, B2, B3, B4. cbn [mapM bind].
  eexists. split; [reflexivity|]. cbn [slen1 slen2 sfun]. intros k Hk.
  set (l13 := (plen p1 + plen p3) / 2). set (l24 := (plen p2 + plen p4) / 2).
  assert (H13 : 0 < l13) by (unfold l13; lra). assert (H24 : 0 < l24) by (unfold l24; lra).
  rewrite !Rdiv_py_ok by lra. cbn [bind].
  replace (k * l13 / l13) with k by (field; lra). replace (k * l24 / l24) with k by (field; lra).
  replace (0 / l24) with 0 by (field; lra). replace (0 / l13) with 0 by (field; lra).
  replace (l13 / l13) with 1 by (field; lra). replace (l24 / l24) with 1 by (field; lra).
  repeat match goal with |- context [pfun p1 (?x * plen p1)] => rewrite (S1 x) by lra end.
  repeat match goal with |- context [pfun p2 (?x * plen p2)] => rewrite (S2 x) by lra end.
  repeat match goal with |- context [pfun p3 (?x * plen p3)] => rewrite (S3 x) by lra end.
  repeat match goal with |- context [pfun p4 (?x * plen p4)] => rewrite (S4 x) by lra end.
  cbn [bind]. repeat split; f_equal; apply vec_eq; simpl; field.
Qed.
Print Assumptions C23_from_boundary_paths_partial.

(** With a curved edge it is not: the surface cuts the corner half way to the chord. *)
Theorem C23_from_boundary_paths_refuted :
  exists p1 p2 p3 p4 s,
    follows_polyline p1 [V3 0 0 0; V3 1 (-1) 0; V3 2 0 0] /\
    follows_polyline p2 [V3 2 0 0; V3 2 2 0] /\ follows_polyline p3 [V3 2 2 0; V3 0 2 0] /\
    follows_polyline p4 [V3 0 2 0; V3 0 0 0] /\
    from_boundary_paths p1 p2 p3 p4 = Ok s /\
    sfun s (1 / 2 * slen1 s) 0 <> pfun p1 (1 / 2 * plen p1).
Proof.
  assert (N : forall a b c a' b' c' : R, (a <> a' \/ b <> b' \/ c <> c') -> V3 a b c <> V3 a' b' c').
  { intros. intros E. injection E. intros. intuition. }
  set (A := V3 0 0 0). set (M := V3 1 (-1) 0). set (B := V3 2 0 0). set (C := V3 2 2 0). set (D := V3 0 2 0).
  assert (NAM : A <> M) by (apply N; lra). assert (NMB : M <> B) by (apply N; lra).
  assert (NBC : B <> C) by (apply N; lra). assert (NCD : C <> D) by (apply N; lra). assert (NDA : D <> A) by (apply N; lra).
  destruct (follows_line_to (line A M) [A] M B) as (p1 & E1 & F1 & _);
    [discriminate|exact NAM|exact NMB|apply (follows_line _ _ NAM)|]. cbn [app] in F1.
  assert (Dd : dist3 A M = dist3 M B).
  { unfold dist3. apply norm_eq. unfold dot, vsub, A, M, B; simpl. ring. }
  pose proof (dist_pos _ _ NAM) as P1. fold (dist3 A M) in P1.
  pose proof (dist_pos _ _ NBC) as P2. fold (dist3 B C) in P2.
  pose proof (dist_pos _ _ NCD) as P3. fold (dist3 C D) in P3.
  pose proof (dist_pos _ _ NDA) as P4. fold (dist3 D A) in P4.
  pose proof F1 as (L1 & B1 & G1). simpl in L1, B1.
  assert (Lp : plen p1 = 2 * dist3 A M) by lra.
  unfold from_boundary_paths.
  exists p1, (line B C), (line C D), (line D A).
  unfold from_boundary_paths. rewrite B1. cbn [mapM line pbps].
  rewrite Rdiv_py_ok by lra. cbn [bind]. eexists.
  split; [exact F1|]. split; [apply follows_line; exact NBC|]. split; [apply follows_line; exact NCD|].
  split; [apply follows_line; exact NDA|]. split; [reflexivity|].
  cbn [slen1 slen2 sfun plen pfun].
  change (norm (vsub C D)) with (dist3 C D). change (norm (vsub D A)) with (dist3 D A).
  change (norm (vsub B C)) with (dist3 B C).
  assert (Hmid : pfun p1 (1 / 2 * plen p1) = Ok M).
  { specialize (G1 0%nat A M (dist3 A M) eq_refl eq_refl ltac:(lra)). simpl in G1. rewrite Rplus_0_l in G1.
    replace (1 / 2 * plen p1) with (dist3 A M) by lra. rewrite G1. f_equal. apply vec_eq; simpl; field; lra. }
  change (plen (line C D)) with (dist3 C D). change (plen (line D A)) with (dist3 D A).
  change (plen (line B C)) with (dist3 B C).
  set (l13 := (plen p1 + dist3 C D) / 2). set (l24 := (dist3 B C + dist3 D A) / 2).
  assert (Hl13 : 0 < l13) by (unfold l13; lra). assert (Hl24 : 0 < l24) by (unfold l24; lra).
  rewrite !Rdiv_py_ok by lra. cbn [bind].
  replace (1 / 2 * l13 / l13) with (1 / 2) by (field; lra). replace (0 / l24) with 0 by (field; lra).
  rewrite Hmid. cbn [bind]. rewrite !line_eval by assumption. cbn [bind].
  replace ((1 - 0) * dist3 D A) with (norm (vsub D A)) by (unfold dist3; ring).
  rewrite Rmult_0_l, on_line_end, on_line_0 by assumption. intros E. injection E.
  intros _ Ey _. revert Ey. generalize (on_line C D ((1 - 1 / 2) * dist3 C D)). intros w.
  unfold A, M, B, C, D; simpl. lra.
Qed.
Print Assumptions C23_from_boundary_paths_refuted.

Example C23_nonvacuous :
  let p := line (V3 0 0 0) (V3 2 0 0) in
  straight p (V3 0 0 0) (V3 2 0 0) /\ 0 < plen p /\ V3 0 0 1 <> vzero.
Proof.
  cbv zeta. assert (H : V3 0 0 0 <> V3 2 0 0) by (intros E; injection E; intros; lra).
  pose proof (dist_pos _ _ H) as P. split; [|split; [exact P|intros E; injection E; intros; lra]].
  intros k Hk. rewrite line_eval by exact H. unfold on_line. cbn [line plen].
  replace (k * norm (vsub (V3 0 0 0) (V3 2 0 0)) / norm (vsub (V3 0 0 0) (V3 2 0 0))) with k by (field; lra).
  reflexivity.
Qed.

(** ** C55 Extruding or revolving the boundary of a surface *)
(** The four edges of a surface given on [0, len1] x [0, len2]: v = 0, v = len2, u = 0 and u = len1. *)
Definition edges_of (s : surface) : list path :=
  [ mkpath (fun u => sfun s u 0) (slen1 s) (sbps1 s) (sname s);
    mkpath (fun u => sfun s u (slen2 s)) (slen1 s) (sbps1 s) (sname s);
    mkpath (fun v => sfun s 0 v) (slen2 s) (sbps2 s) (sname s);
    mkpath (fun v => sfun s (slen1 s) v) (slen2 s) (sbps2 s) (sname s) ].
(** [i] selects a true boundary edge of [s]: any edge when no edge is closed, otherwise the closed
    ones. *)
Definition true_edge (s : surface) (i : nat) : Prop :=
  exists e, nth_error (edges_of s) i = Some e /\
    (is_closed e = Ok true \/ forall e', In e' (edges_of s) -> is_closed e' = Ok false).
(** [side] joins the edge [i] of [s] to the edge [i] of [cap]. *)
Definition joins (s cap side : surface) (i : nat) : Prop :=
  exists e e', nth_error (edges_of s) i = Some e /\ nth_error (edges_of cap) i = Some e' /\
    slen1 side = plen e /\ sbps1 side = pbps e /\
    forall u q, pfun e u = Ok q -> sfun side u 0 = Ok q /\ sfun side u (slen2 side) = pfun e' u.
(** The sides join exactly the true edges, in order and once each. *)
Definition joined (s cap : surface) (sides : list surface) : Prop :=
  exists idx, NoDup idx /\ (forall i, In i idx <-> true_edge s i) /\ Forall2 (fun side i => joins s cap side i) sides idx.

Lemma boundary_selected s bs : get_boundary_paths s = Ok bs ->
  exists idx, NoDup idx /\ (forall i, In i idx <-> true_edge s i) /\
    Forall2 (fun b i => nth_error (edges_of s) i = Some b) bs idx.
Proof.
  unfold get_boundary_paths, true_edge. intros H. apply bind_ok in H. destruct H as (cl & Hc & H).
  apply mapM_ok in Hc. change (SurfaceModel.boundary_edges s) with (edges_of s) in *.
  remember (edges_of s) as es eqn:Ees.
  assert (Hl : length es = 4%nat) by (rewrite Ees; reflexivity). clear Ees.
  destruct es as [|e0 [|e1 [|e2 [|e3 [|? ?]]]]]; try discriminate Hl. clear Hl.
  inversion Hc as [|? c0 ? ? C0 Hc0]; subst. inversion Hc0 as [|? c1 ? ? C1 Hc1]; subst.
  inversion Hc1 as [|? c2 ? ? C2 Hc2]; subst. inversion Hc2 as [|? c3 ? ? C3 Hc3]; subst. inversion Hc3; subst.
  clear Hc Hc0 Hc1 Hc2 Hc3. injection H as <-.
  exists (if existsb (fun b => b) [c0; c1; c2; c3] then mask [0;1;2;3]%nat [c0;c1;c2;c3] else [0;1;2;3]%nat).
  split; [|split].
  - destruct c0, c1, c2, c3; simpl; repeat constructor; simpl; intuition discriminate.
  - intros i. split.
    + intros Hi.
      assert (Hd : (i = 0 \/ i = 1 \/ i = 2 \/ i = 3)%nat).
      { destruct c0, c1, c2, c3; simpl in Hi; intuition. }
      destruct (existsb (fun b => b) [c0; c1; c2; c3]) eqn:Ex.
      * apply mask_In_iff in Hi. destruct Hi as (j & J1 & J2).
        do 4 (destruct j as [|j]; [injection J1 as <-; injection J2 as ->; eexists; split; [reflexivity|left; assumption]|]).
        destruct j; discriminate.
      * assert (A : forall e', In e' [e0; e1; e2; e3] -> is_closed e' = Ok false).
        { simpl in Ex. destruct c0, c1, c2, c3; try discriminate. intros e' [<-|[<-|[<-|[<-|[]]]]]; assumption. }
        destruct Hd as [->|[->|[->| ->]]]; (eexists; split; [reflexivity|right; exact A]).
    + intros (e & He & Hor).
      destruct (existsb (fun b => b) [c0; c1; c2; c3]) eqn:Ex.
      * apply mask_In_iff. exists i.
        assert (Hcl : is_closed e = Ok true).
        { destruct Hor as [K|K]; [exact K|]. exfalso.
          pose proof (K e0 ltac:(simpl; auto)). pose proof (K e1 ltac:(simpl; auto)).
          pose proof (K e2 ltac:(simpl; auto)). pose proof (K e3 ltac:(simpl; auto)).
          destruct c0, c1, c2, c3; try congruence; discriminate. }
        do 4 (destruct i as [|i]; [injection He as <-; split; [reflexivity|simpl; congruence]|]). destruct i; discriminate.
      * do 4 (destruct i as [|i]; [simpl; tauto|]). destruct i; discriminate.
  - destruct c0, c1, c2, c3; simpl; repeat constructor.
Qed.

Lemma edges_map f s i e : nth_error (edges_of s) i = Some e ->
  exists e', nth_error (edges_of (surf_map f s)) i = Some e' /\ forall u, pfun e' u = (q <- pfun e u ;; f q).
Proof.
  intros H. do 4 (destruct i as [|i]; [injection H as <-; eexists; split; [reflexivity|intros; reflexivity]|]).
  destruct i; discriminate.
Qed.

Theorem C55_extrude_boundary vector s parts : vector <> vzero ->
  extrude_boundary vector true s = Ok parts ->
  exists sides, parts = (s :: sides ++ [surf_move vector s])%list /\ joined s (surf_move vector s) sides.
Proof.
  intros Hv H. unfold extrude_boundary in H. apply bind_ok in H. destruct H as (bs & Hb & H). injection H as <-.
  exists (map (extrude vector) bs). split; [reflexivity|].
  destruct (boundary_selected s bs Hb) as (idx & N & I & F). exists idx. split; [exact N|]. split; [exact I|].
  clear - F Hv. induction F as [|b i bs idx Hi F IH]; cbn [map]; constructor; [|exact IH].
  destruct (edges_map (fun v => Ok (move vector v)) s i b Hi) as (e' & He' & Pe).
  exists b, e'. split; [exact Hi|]. split; [exact He'|]. split; [reflexivity|]. split; [reflexivity|].
  intros u q Hq. destruct (C23_extrude vector b u q 0 Hv Hq) as (_ & _ & _ & _ & A & B).
  split; [exact A|]. rewrite B, Pe, Hq. reflexivity.
Qed.
Print Assumptions C55_extrude_boundary.

Theorem C55_not_enclosed vector s parts : vector <> vzero -> extrude_boundary vector false s = Ok parts ->
  exists sides, parts = s :: sides /\ joined s (surf_move vector s) sides.
Proof.
  intros Hv H.
  assert (E : extrude_boundary vector true s = Ok (parts ++ [surf_move vector s])%list).
  { unfold extrude_boundary in *. apply bind_ok in H. destruct H as (bs & Hb & H). rewrite Hb. cbn [bind].
    injection H as <-. reflexivity. }
  destruct (C55_extrude_boundary vector s _ Hv E) as (sides & P & J). exists sides. split; [|exact J].
  change (s :: sides ++ [surf_move vector s])%list with ((s :: sides) ++ [surf_move vector s])%list in P.
  apply app_inj_tail in P. tauto.
Qed.
Print Assumptions C55_not_enclosed.

Definition revolve_boundary_about (a : axis) : (path -> R) -> R -> bool -> surface -> result (list surface) :=
  match a with AxisX => revolve_boundary_x | AxisY => revolve_boundary_y | AxisZ => revolve_boundary_z end.
Lemma revolve_boundary_about_eq a r_avg angle enclose s :
  revolve_boundary_about a r_avg angle enclose s =
  revolve_boundary (revolve_about a) (fun t s => f <- rotate_about a t vzero ;; Ok (surf_map f s)) r_avg angle enclose s.
Proof. destruct a; reflexivity. Qed.

(** A partial turn about x or z: the sides join the surface to the surface turned by [angle]. *)
Theorem C55_revolve_boundary_partial a r_avg angle s parts : a <> AxisY ->
  (forall p, r_avg p <> 0) -> angle <> 0 -> angle_is_full angle = false ->
  revolve_boundary_about a r_avg angle true s = Ok parts ->
  exists sides F, rotate_about a angle vzero = Ok F /\
    parts = (s :: sides ++ [surf_map F s])%list /\ joined s (surf_map F s) sides.
Proof.
  intros Ha Hr Hang Hfull H. rewrite revolve_boundary_about_eq in H. unfold revolve_boundary in H.
  apply bind_ok in H. destruct H as (bs & Hb & H). rewrite Hfull in H. cbn [andb negb] in H.
  apply bind_ok in H. destruct H as (c & Hc & H). injection H as <-.
  apply bind_ok in Hc. destruct Hc as (F & HF & Hc). injection Hc as <-.
  exists (map (fun p => revolve_about a (r_avg p) angle p) bs), F. split; [exact HF|]. split; [reflexivity|].
  destruct (boundary_selected s bs Hb) as (idx & N & I & G). exists idx. split; [exact N|]. split; [exact I|].
  clear - G HF Ha Hr Hang. induction G as [|b i bs idx Hi G IH]; cbn [map]; constructor; [|exact IH].
  destruct (edges_map F s i b Hi) as (e' & He' & Pe).
  exists b, e'. split; [exact Hi|]. split; [exact He'|].
  split; [destruct a; reflexivity|]. split; [destruct a; reflexivity|].
  intros u q Hq. destruct (C22_revolve_keeps_distance a (r_avg b) angle b u q (Hr b) Hq) as (_ & _ & _ & A & _).
  split; [exact A|].
  destruct (C22_revolve_turns_like_rotate_partial a (r_avg b) angle b u q Ha (Hr b) Hq) as (_ & K).
  destruct (K Hang) as (F' & HF' & K'). rewrite HF in HF'. injection HF' as <-. rewrite K', Pe, Hq. reflexivity.
Qed.
Print Assumptions C55_revolve_boundary_partial.

(** A full turn: no cap is added and every side closes on itself. *)
Theorem C55_revolve_boundary_full a r_avg enclose s parts : (forall p, r_avg p <> 0) ->
  revolve_boundary_about a r_avg (2 * PI) enclose s = Ok parts ->
  exists sides, parts = s :: sides /\ joined s s sides.
Proof.
  intros Hr H. rewrite revolve_boundary_about_eq in H. unfold revolve_boundary in H.
  apply bind_ok in H. destruct H as (bs & Hb & H).
  replace (enclose && negb (angle_is_full (2 * PI))) with false in H.
  2: { unfold angle_is_full. rewrite close1_refl; destruct enclose; reflexivity. }
  injection H as <-. exists (map (fun p => revolve_about a (r_avg p) (2 * PI) p) bs). split; [reflexivity|].
  destruct (boundary_selected s bs Hb) as (idx & N & I & G). exists idx. split; [exact N|]. split; [exact I|].
  clear - G Hr. induction G as [|b i bs idx Hi G IH]; cbn [map]; constructor; [|exact IH].
  exists b, b. split; [exact Hi|]. split; [exact Hi|]. split; [destruct a; reflexivity|]. split; [destruct a; reflexivity|].
  intros u q Hq. destruct (C22_revolve_keeps_distance a (r_avg b) (2 * PI) b u q (Hr b) Hq) as (_ & _ & L & A & _).
  split; [exact A|]. rewrite L, Hq, (revolve_is_rotation a (r_avg b) (2 * PI) b u _ q (Hr b) Hq). f_equal.
  pose proof PI_RGT_0. replace (2 * PI * r_avg b / (2 * PI * r_avg b) * (2 * PI)) with (2 * PI) by (field; specialize (Hr b); lra).
  rewrite <- (rodrigues_0 (unit_of a) vzero q) at 2. unfold rodrigues.
  replace (cos (sense a * (2 * PI))) with (cos 0); [replace (sin (sense a * (2 * PI))) with (sin 0); [reflexivity|]|];
    destruct a; cbn [sense]; rewrite ?Rmult_1_l; replace (-1 * (2 * PI)) with (- (2 * PI)) by ring;
    rewrite ?cos_neg, ?sin_neg, ?cos_2PI, ?sin_2PI, ?cos_0, ?sin_0; ring.
Qed.
Print Assumptions C55_revolve_boundary_full.

(** A flat unit square used as a concrete surface. *)
Definition unit_square : surface := mksurf (fun u v => Ok (V3 (1 + u) v 0)) 1 1 [] [] None.
Lemma unit_square_edges : forall e, In e (edges_of unit_square) -> is_closed e = Ok false.
Proof.
  assert (F : forall a b : R, Rabs (a - b) = 1 -> Rabs b <= 2 -> close1 a b = false).
  { intros a b H1 H2. unfold close1. apply Rleb_false. rewrite H1. lra. }
  intros e [<-|[<-|[<-|[<-|[]]]]]; unfold is_closed, starting_point, endpoint, points_close, unit_square; simpl; f_equal.
  - rewrite F; [reflexivity|unfold Rabs; destruct Rcase_abs; lra|unfold Rabs; destruct Rcase_abs; lra].
  - rewrite F; [reflexivity|unfold Rabs; destruct Rcase_abs; lra|unfold Rabs; destruct Rcase_abs; lra].
  - rewrite (F 0 1); [rewrite andb_false_r; reflexivity|unfold Rabs; destruct Rcase_abs; lra|unfold Rabs; destruct Rcase_abs; lra].
  - rewrite (F 0 1); [rewrite andb_false_r; reflexivity|unfold Rabs; destruct Rcase_abs; lra|unfold Rabs; destruct Rcase_abs; lra].
Qed.
Lemma unit_square_boundary : get_boundary_paths unit_square = Ok (edges_of unit_square).
Proof.
  unfold get_boundary_paths. change (SurfaceModel.boundary_edges unit_square) with (edges_of unit_square). rewrite (mapM_pure _ (fun _ => false)); [reflexivity|].
  intros e He. apply unit_square_edges, He.
Qed.

(** About y the sides end at the surface turned the other way, away from the cap. *)
Theorem C55_revolve_boundary_y_refuted :
  exists s r_avg angle parts, (forall p, r_avg p <> 0) /\ 0 < angle < 2 * PI /\ angle_is_full angle = false /\
    revolve_boundary_y r_avg angle true s = Ok parts /\
    ~ exists sides F, rotate_about AxisY angle vzero = Ok F /\
        parts = (s :: sides ++ [surf_map F s])%list /\ joined s (surf_map F s) sides.
Proof.
  pose proof PI_RGT_0 as HP. pose proof PI_4 as HP4. 
  destruct (rotate_rodrigues AxisY (PI / 2) vzero ltac:(lra)) as (F & EF & HF).
  assert (NF : angle_is_full (PI / 2) = false).
  { unfold angle_is_full, close1. apply Rleb_false.
    replace (PI / 2 - 2 * PI) with (- (3 * PI / 2)) by field. rewrite Rabs_Ropp.
    rewrite !Rabs_right by lra. assert (2 < PI) by (pose proof PI2_3_2; lra). lra. }
  exists unit_square, (fun _ => 1), (PI / 2).
  change revolve_boundary_y with (revolve_boundary_about AxisY). rewrite revolve_boundary_about_eq.
  unfold revolve_boundary. rewrite unit_square_boundary. cbn [bind]. rewrite NF, EF. cbn [andb negb bind].
  eexists. split; [intros _; lra|]. split; [lra|]. split; [reflexivity|]. split; [reflexivity|].
  intros (sides & F' & EF' & P & (idx & _ & I & J)).
  injection EF' as <-. injection P as P. 
  assert (P' : sides = map (fun p => revolve_about AxisY 1 (PI / 2) p) (edges_of unit_square)).
  { change (?a :: ?b :: ?c :: ?d :: ?e :: nil) with ([a; b; c; d] ++ [e])%list in P.
    match type of P with ?l = _ => change l with ((map (fun p => revolve_about AxisY 1 (PI / 2) p) (edges_of unit_square)) ++ [surf_map F unit_square])%list in P end.
    apply app_inj_tail in P. symmetry. apply P. }
  subst sides. inversion J as [|side i ? ? (e & e' & He & He' & _ & _ & Hj) J']; subst.
  (* the first side starts on the edge v = 0, where the point (1, 0, 0) turns to (0, 0, 1) *)
  assert (Hq : exists q, pfun e 0 = Ok q) by (do 4 (destruct i as [|i]; [injection He as <-; eexists; reflexivity|]); destruct i; discriminate).
  destruct Hq as (q & Hq). destruct (Hj 0 q Hq) as (A & B).
  set (p0 := mkpath (fun u => sfun unit_square u 0) (slen1 unit_square) (sbps1 unit_square) (sname unit_square)) in *.
  assert (Hp0 : pfun p0 0 = Ok (V3 (1 + 0) 0 0)) by reflexivity.
  change (sfun (revolve_about AxisY 1 (PI / 2) p0) 0 0 = Ok q) in A.
  change (sfun (revolve_about AxisY 1 (PI / 2) p0) 0 (2 * PI * 1) = pfun e' 0) in B.
  rewrite (revolve_is_rotation AxisY 1 (PI / 2) p0 0 0 _ ltac:(lra) Hp0) in A.
  rewrite (revolve_is_rotation AxisY 1 (PI / 2) p0 0 _ _ ltac:(lra) Hp0) in B.
  replace (sense AxisY * (0 / (2 * PI * 1) * (PI / 2))) with 0 in A by (simpl; field; lra). rewrite rodrigues_0 in A.
  replace (sense AxisY * (2 * PI * 1 / (2 * PI * 1) * (PI / 2))) with (- (PI / 2)) in B by (simpl; field; lra).
  destruct (edges_map F unit_square i e He) as (e'' & He'' & Pe). rewrite He' in He''. injection He'' as <-.
  rewrite Pe, Hq in B. cbn [bind] in B. rewrite HF in B. injection A as <-.
  injection B. rewrite cos_neg, sin_neg, cos_PI2, sin_PI2. unfold ey, vzero; simpl. intros; lra.
Qed.
Print Assumptions C55_revolve_boundary_y_refuted.

(** extrude_boundary_by_path cannot return a surface. *)
Theorem C55_extrude_boundary_by_path_refuted pth enclose s bs : get_boundary_paths s = Ok bs -> bs <> [] ->
  extrude_boundary_by_path pth enclose s = Err TypeError.
Proof.
  intros H Hn. unfold extrude_boundary_by_path. rewrite H. destruct bs as [|b bs]; [congruence|]. reflexivity.
Qed.
Print Assumptions C55_extrude_boundary_by_path_refuted.

Example C55_nonvacuous : exists parts,
  extrude_boundary (V3 0 0 1) true unit_square = Ok parts /\ length parts = 6%nat /\ V3 0 0 1 <> vzero /\
  (exists parts', revolve_boundary_about AxisZ (fun _ => 1) (2 * PI) true unit_square = Ok parts') /\
  get_boundary_paths unit_square = Ok (edges_of unit_square).
Proof.
  unfold extrude_boundary. rewrite unit_square_boundary. eexists. split; [reflexivity|]. split; [reflexivity|].
  split; [intros E; injection E; intros; lra|]. split; [|reflexivity].
  rewrite revolve_boundary_about_eq. unfold revolve_boundary. rewrite unit_square_boundary. cbn [bind].
  unfold angle_is_full. rewrite close1_refl. eexists. reflexivity.
Qed.
