(** C24, C25, C26, C58, C59, C60: meshes of parametric surfaces.

    A mesh is [(pts, tris)], the points and triangles that are handed to the Mesh constructor.
    The statements speak about the triangles of the mesh in the parameter rectangle of the
    surface: [tri_on (sfun s) Ok pts t k] says that the corners of the mesh triangle [k] are the
    points of the surface at the corners of the parameter triangle [t] (MesherSpec.v). *)
From Coq Require Import Reals Lra Psatz Sorted.
From Verif Require Import Base BaseFacts Vec GeomModel GeomFacts QuadModel KronrodFacts PathModel PathSpec PathFacts PolyFacts
  SurfaceModel SurfaceFacts MesherModel MesherSpec MesherTri MesherTile MesherSurf MesherEnd MesherWhole MesherTotal MesherGentle
  MesherShapes MesherPaths MesherFine MesherSim MesherRefute MesherUniform MesherEven MesherBox.
Local Open Scope R_scope.

(** the breakpoints lie strictly between 0 and the lengths, in increasing order *)
Definition breakpoints_in_order (s : surface) : Prop :=
  StronglySorted Rlt (0 :: sbps1 s ++ [slen1 s]) /\ StronglySorted Rlt (0 :: sbps2 s ++ [slen2 s]).
(** [s.mesh] with mesh size [ms] returns this mesh (for every sufficient number of loop iterations) *)
Definition meshed (s : surface) (msize : vec3 -> result R) (sd : nat) (pts : list vec3) (tris : list (nat * nat * nat)) : Prop :=
  exists N info, forall fuel, (N <= fuel)%nat -> mesh_surface fuel s msize sd = Ok ((pts, tris), info).
(** the triangles cover the parameter rectangle exactly once, turn the same way, and share their corners *)
Definition tiled (s : surface) (pts : list vec3) (tris : list (nat * nat * nat)) : Prop :=
  exists T, Forall2 (tri_on (sfun s) Ok pts) T tris /\ welded T tris /\ oriented T /\ no_overlap T /\
    inside 0 (slen1 s) 0 (slen2 s) T /\ covers 0 (slen1 s) 0 (slen2 s) T.
Definition meshed_and_tiled (s : surface) (ms : R) (sd : nat) : Prop :=
  exists pts tris, meshed s (fun _ => Ok ms) sd pts tris /\ tiled s pts tris.
Lemma as_tiled s ms sd : (exists N pts tris info,
    (forall fuel, (N <= fuel)%nat -> mesh_surface fuel s (fun _ => Ok ms) sd = Ok ((pts, tris), info)) /\ tiles s pts tris) ->
  meshed_and_tiled s ms sd.
Proof. intros (N & pts & tris & info & H & G). exists pts, tris. split; [exists N, info; exact H|exact G]. Qed.

(** ** C24 *)

(** No overlaps, no triangles outside, one orientation: for every surface with breakpoints in at
    most one direction, every mesh size function and every run that ends. *)
Theorem C24_no_overlap_partial fuel s msize sd pts tris info :
  breakpoints_in_order s -> sbps1 s = [] \/ sbps2 s = [] ->
  mesh_surface fuel s msize sd = Ok ((pts, tris), info) ->
  exists T, Forall2 (tri_on (sfun s) Ok pts) T tris /\ oriented T /\ no_overlap T /\ inside 0 (slen1 s) 0 (slen2 s) T.
Proof.
  intros Hw Hone H. destruct info as ((depth, ms), qss).
  destruct (mesh_surface_whole fuel s msize sd pts tris depth ms qss Hw Hone H) as (_ & _ & T & T1 & _ & T2 & T3 & T4 & _).
  exists T. auto.
Qed.
Print Assumptions C24_no_overlap_partial.

(** No holes for the surfaces that the library builds from lines, circles and arcs. *)
Theorem C24_extrude_covered_partial w p ms sd : w <> vzero -> smooth p -> 0 < ms -> meshed_and_tiled (extrude w p) ms sd.
Proof. intros. apply as_tiled, smooth_extrude_tiles; assumption. Qed.
Print Assumptions C24_extrude_covered_partial.
Theorem C24_extrude_by_path_covered_partial p p2 p0 ms sd : smooth p -> smooth p2 -> starting_point p2 = Ok p0 ->
  pbps p = [] \/ pbps p2 = [] -> 0 < ms -> exists s, extrude_by_path p2 p = Ok s /\ meshed_and_tiled s ms sd.
Proof.
  intros H1 H2 H3 H4 H5. destruct (extrude_by_path_tiles p p2 p0 ms sd H1 H2 H3 H4 H5) as (s & E & H).
  exists s. split; [exact E|apply as_tiled, H].
Qed.
Print Assumptions C24_extrude_by_path_covered_partial.
Theorem C24_revolve_covered_partial r_avg angle cs p ms sd : (2 <= length cs)%nat -> proper cs -> follows_polyline p cs -> 0 < r_avg -> 0 < ms ->
  meshed_and_tiled (revolve_x r_avg angle p) ms sd /\ meshed_and_tiled (revolve_y r_avg angle p) ms sd /\
  meshed_and_tiled (revolve_z r_avg angle p) ms sd.
Proof.
  intros Hl Hp Hf Hr Hms. pose proof (follows_straight p cs Hl Hp Hf) as Hs.
  split; [|split]; apply as_tiled; [apply (revolve_tiles AxisX)|apply (revolve_tiles AxisY)|apply (revolve_tiles AxisZ)]; assumption.
Qed.
Print Assumptions C24_revolve_covered_partial.
Theorem C24_sphere_covered_partial radius ms sd : 0 < radius -> (1 <= sd)%nat -> 0 < ms -> meshed_and_tiled (sphere radius) ms sd.
Proof. intros. apply as_tiled, sphere_tiles; assumption. Qed.
Print Assumptions C24_sphere_covered_partial.
Theorem C24_disk_covered_partial r_avg a b radius ms sd : 0 < r_avg -> 0 < radius -> 0 < ms ->
  (exists s, disk_xz r_avg a b radius = Ok s /\ meshed_and_tiled s ms sd) /\
  (exists s, disk_yz r_avg a b radius = Ok s /\ meshed_and_tiled s ms sd) /\
  (exists s, disk_xy r_avg a b radius = Ok s /\ meshed_and_tiled s ms sd).
Proof.
  intros Hr Hrad Hms. assert (E : Rltb 0 radius = true) by (apply Rltb_true; exact Hrad).
  unfold disk_xz, disk_yz, disk_xy. rewrite E. cbn [py_assert bind].
  split; [|split]; eexists; (split; [reflexivity|]); apply as_tiled;
    [apply (disk_of AxisY)|apply (disk_of AxisX)|apply (disk_of AxisZ)]; try assumption;
    apply line_straight; unfold vzero; intros H; injection H; intros; lra.
Qed.
Print Assumptions C24_disk_covered_partial.
Theorem C24_rectangle_covered_partial a b c d ms sd : a < b -> c < d -> 0 < ms ->
  meshed_and_tiled (surf_rectangle_xz a b c d) ms sd /\ meshed_and_tiled (surf_rectangle_yz a b c d) ms sd /\
  meshed_and_tiled (surf_rectangle_xy a b c d) ms sd.
Proof.
  intros H1 H2 Hms. unfold surf_rectangle_xz, surf_rectangle_yz, surf_rectangle_xy.
  split; [|split]; apply as_tiled, extrude_tiles; try exact Hms;
    try (unfold vzero; intros H; injection H; intros; lra); apply line_straight; intros H; injection H; intros; lra.
Qed.
Print Assumptions C24_rectangle_covered_partial.
Theorem C24_spanned_covered_partial a b c d ms sd : a <> b -> c <> d -> a <> c \/ b <> d -> 0 < ms ->
  exists s, spanned_by_paths (line a b) (line c d) = Ok s /\ meshed_and_tiled s ms sd.
Proof.
  intros H1 H2 H3 H4. destruct (spanned_tiles a b c d ms sd H1 H2 H3 H4) as (s & E & H). exists s. split; [exact E|apply as_tiled, H].
Qed.
Print Assumptions C24_spanned_covered_partial.
Theorem C24_box_covered_partial p0 p1 ms sd : vx p0 <> vx p1 -> vy p0 <> vy p1 -> vz p0 <> vz p1 -> 0 < ms ->
  exists parts, box p0 p1 = Ok parts /\ length parts = 3%nat /\ forall s, In s parts -> meshed_and_tiled s ms sd.
Proof.
  intros H1 H2 H3 H4. destruct (box_tiles p0 p1 ms sd H1 H2 H3 H4) as (parts & E & L & H). exists parts.
  split; [exact E|]. split; [exact L|]. intros s Hs. apply as_tiled, H, Hs.
Qed.
Print Assumptions C24_box_covered_partial.
(** the curves meant by [smooth]: lines, circles and arcs, and what line_to, arc_to and move make of them *)
Theorem C24_smooth_curves :
  (forall a b, a <> b -> smooth (line a b)) /\
  (forall x z r angle, 0 < r -> 0 < angle ->
     smooth (circle_xz x z r angle) /\ smooth (circle_yz x z r angle) /\ smooth (circle_xy x z r angle)) /\
  (forall c a b rev, cross (vsub a c) (vsub b c) <> vzero -> exists p, arc c a b rev = Ok p /\ smooth p) /\
  (forall p e b, smooth p -> endpoint p = Ok e -> e <> b -> exists r, line_to b p = Ok r /\ smooth r /\ endpoint r = Ok b) /\
  (forall p e c b rev, smooth p -> endpoint p = Ok e -> cross (vsub e c) (vsub b c) <> vzero ->
     exists r, arc_to c b rev p = Ok r /\ smooth r /\ (dist3 b c = dist3 e c -> endpoint r = Ok b)) /\
  (forall w p, smooth p -> smooth (path_move w p)).
Proof.
  split; [intros a b H; apply straight_smooth, line_straight, H|]. split; [intros; apply circle_smooth; assumption|].
  split; [|split; [intros; eapply smooth_line_to; eassumption|split; [intros; eapply smooth_arc_to; eassumption|apply smooth_move]]].
  intros c a b rev H. destruct (PathOpsFacts.arc_ok c a b rev H) as (x & y & r & th & p & _ & E & _). exists p. split; [exact E|].
  apply (arc_smooth c a b rev p H E).
Qed.
Print Assumptions C24_smooth_curves.
Example C24_nonvacuous : meshed_and_tiled (extrude (V3 0 0 3) (circle_xy 0 0 2 (2 * PI))) (1/10) 2.
Proof.
  apply C24_extrude_covered_partial; [unfold vzero; intros H; injection H; intros; lra| |lra].
  apply circle_smooth; [lra|]. pose proof PI_RGT_0. lra.
Qed.

(** There is a smooth, flat, one to one surface without breakpoints, meshed with a constant mesh
    size, whose mesh has a hole. *)
Theorem C24_hole_refuted : exists s pts tris,
  sbps1 s = [] /\ sbps2 s = [] /\ 0 < slen1 s /\ 0 < slen2 s /\
  (forall u v, exists p, sfun s u v = Ok p) /\
  (forall u v u' v', 0 <= u <= slen1 s -> 0 <= u' <= slen1 s -> sfun s u v = sfun s u' v' -> u = u' /\ v = v') /\
  (exists N info, forall fuel, (N <= fuel)%nat -> surface_mesh fuel s (Some (201/200)) None = Ok ((pts, tris), info)) /\
  forall T, Forall2 (tri_on (sfun s) Ok pts) T tris -> ~ covers 0 (slen1 s) 0 (slen2 s) T.
Proof.
  destruct sheet_hole as (N & pts & tris & info & H & G). exists sheet, pts, tris.
  split; [reflexivity|]. split; [reflexivity|]. cbn [sheet slen1 slen2]. split; [lra|]. split; [lra|].
  split; [intros u v; eexists; reflexivity|]. split.
  - intros u v u' v' Hu Hu' E. cbn [sfun] in E. injection E as E1 E2. assert (u = u') by lra. subst u'. split; [reflexivity|].
    apply Rmult_eq_reg_r in E1; [exact E1|]. nra.
  - split; [exists N, info; exact H|]. intros T HT. apply (proj1 (G T HT)).
Qed.
Print Assumptions C24_hole_refuted.

(** ** C25 *)

(** Corners at the same parameters are the same point, and every point is the point of the surface there. *)
Theorem C25_points_partial fuel s msize sd pts tris info :
  breakpoints_in_order s -> sbps1 s = [] \/ sbps2 s = [] ->
  mesh_surface fuel s msize sd = Ok ((pts, tris), info) ->
  exists T, Forall2 (tri_on (sfun s) Ok pts) T tris /\ welded T tris.
Proof.
  intros Hw Hone H. destruct info as ((depth, ms), qss).
  destruct (mesh_surface_whole fuel s msize sd pts tris depth ms qss Hw Hone H) as (_ & _ & T & T1 & T2 & _).
  exists T. auto.
Qed.
Print Assumptions C25_points_partial.
(** The grid positions that the mesher has numbered, once the sections are brought to one depth
    and stitched: all of them are numbered with the point of the surface at this position. *)
Theorem C25_positions_partial fuel s msize sd pts tris depth maps quads :
  breakpoints_in_order s -> sbps1 s = [] \/ sbps2 s = [] ->
  mesh_surface fuel s msize sd = Ok ((pts, tris), (depth, maps, quads)) ->
  Forall2 (fun r m => forall i j k, m i j = Some k -> (i <= 2 ^ depth)%nat /\ (j <= 2 ^ depth)%nat /\
    exists p, nth_error pts k = Some p /\
      sfun s (fst (fst r) + (snd (fst r) - fst (fst r)) / 2 ^ depth * INR i)
             (fst (snd r) + (snd (snd r) - fst (snd r)) / 2 ^ depth * INR j) = Ok p) (rects s) maps.
Proof. intros Hw Hone H. apply (mesh_surface_whole fuel s msize sd pts tris depth maps quads Hw Hone H). Qed.
Print Assumptions C25_positions_partial.
(** A flat rectangle is evaluated twice at the same parameters. *)
Theorem C25_evaluated_twice_refuted : exists s pts tris i j p,
  (forall u v, sfun s u v = Ok (V3 u v 0)) /\ sbps1 s = [] /\ sbps2 s = [] /\
  (exists N info, forall fuel, (N <= fuel)%nat -> surface_mesh fuel s (Some (19/10)) None = Ok ((pts, tris), info)) /\
  i <> j /\ nth_error pts i = Some p /\ nth_error pts j = Some p.
Proof.
  destruct plate_twice as (N & pts & tris & info & H & i & j & p & A & B & C). exists plate, pts, tris, i, j, p.
  split; [reflexivity|]. split; [reflexivity|]. split; [reflexivity|]. split; [exists N, info; exact H|]. auto.
Qed.
Print Assumptions C25_evaluated_twice_refuted.

(** ** C26 *)
Theorem C26_one_direction_partial fuel s msize sd pts tris depth maps quads :
  breakpoints_in_order s -> sbps1 s = [] \/ sbps2 s = [] ->
  mesh_surface fuel s msize sd = Ok ((pts, tris), (depth, maps, quads)) ->
  forall x a b, nth_error maps x = Some a -> nth_error maps (x + 1)%nat = Some b ->
    (sbps2 s = [] -> forall j, a (2 ^ depth)%nat j = b 0%nat j) /\
    (sbps1 s = [] -> sbps2 s <> [] -> forall i, a i (2 ^ depth)%nat = b i 0%nat).
Proof. intros Hw Hone H. apply (mesh_surface_whole fuel s msize sd pts tris depth maps quads Hw Hone H). Qed.
Print Assumptions C26_one_direction_partial.
(** With one breakpoint in each direction a flat square is meshed with overlapping and inverted
    triangles, one of them more than twice as long as the mesh size allows. *)
Theorem C26_two_directions_refuted : exists s pts tris,
  (forall u v, sfun s u v = Ok (V3 u v 0)) /\ slen1 s = 2 /\ slen2 s = 2 /\ sbps1 s = [1] /\ sbps2 s = [1] /\
  (exists N info, forall fuel, (N <= fuel)%nat -> surface_mesh fuel s (Some (1/2)) None = Ok ((pts, tris), info)) /\
  (exists k a b, In k tris /\ nth_error pts (fst (fst k)) = Some a /\ nth_error pts (snd k) = Some b /\ 5/4 < dist3 a b) /\
  forall T, Forall2 (tri_on (sfun s) Ok pts) T tris ->
    ~ oriented T /\
    exists x y t t' p, x <> y /\ nth_error T x = Some t /\ nth_error T y = Some t' /\ strictly_in t p /\ strictly_in t' p.
Proof.
  destruct cross_wrong as (N & pts & tris & info & H & A & B). exists cross_plate, pts, tris.
  split; [reflexivity|]. do 4 (split; [reflexivity|]). split; [exists N, info; exact H|]. split; [exact A|exact B].
Qed.
Print Assumptions C26_two_directions_refuted.
(** a concrete surface with two sections *)
Example C26_nonvacuous : exists p pts tris, line_to (V3 1 1 0) (line (V3 0 0 0) (V3 1 0 0)) = Ok p /\
  length (sections (extrude (V3 0 0 1) p)) = 2%nat /\ breakpoints_in_order (extrude (V3 0 0 1) p) /\
  meshed (extrude (V3 0 0 1) p) (fun _ => Ok (1/3)) 2 pts tris.
Proof.
  destruct (smooth_line_to (line (V3 0 0 0) (V3 1 0 0)) (V3 1 0 0) (V3 1 1 0)) as (p & E & S & _).
  - apply straight_smooth, line_straight. intros H; injection H; intros; lra.
  - unfold endpoint. pose proof (line_fun (V3 0 0 0) (V3 1 0 0) 1) as L. rewrite Rmult_1_l in L. rewrite L.
    + f_equal. apply vec_eq; simpl; ring.
    + intros H; injection H; intros; lra.
  - intros H; injection H; intros; lra.
  - destruct (C24_extrude_covered_partial (V3 0 0 1) p (1/3) 2) as (pts & tris & M & _); [unfold vzero; intros H; injection H; intros; lra|exact S|lra|].
    exists p, pts, tris. split; [exact E|]. split; [|split; [|exact M]].
    + assert (EB : exists x, pbps p = [x]).
      { unfold line_to in E. apply bind_ok in E. destruct E as (e & _ & E). unfold rshift in E. apply bind_ok in E. destruct E as (e1 & _ & E).
        apply bind_ok in E. destruct E as (e2 & _ & E). apply bind_ok in E. destruct E as (e3 & _ & E). injection E as <-. eexists. reflexivity. }
      destruct EB as (x & EB). unfold sections. cbn [extrude sbps1 slen1]. rewrite EB. reflexivity.
    + split; [apply S|]. cbn [extrude sbps2 slen2 app]. apply no_cuts.
      pose proof (norm_nonneg (V3 0 0 1)). assert (norm (V3 0 0 1) <> 0); [|lra]. intros Z. apply norm_zero in Z. unfold vzero in Z. injection Z; intros; lra.
Qed.

(** ** C58 *)
(** Meshing ends without an exception, whatever the breakpoints. *)
Theorem C58_meshing_ends s F msize K c sd :
  breakpoints_in_order s ->
  (forall u v, 0 <= u <= slen1 s -> 0 <= v <= slen2 s -> sfun s u v = Ok (F u v)) ->
  (forall u u' v, 0 <= u <= slen1 s -> 0 <= u' <= slen1 s -> 0 <= v <= slen2 s -> dist3 (F u v) (F u' v) <= K * Rabs (u - u')) ->
  (forall u v v', 0 <= u <= slen1 s -> 0 <= v <= slen2 s -> 0 <= v' <= slen2 s -> dist3 (F u v) (F u v') <= K * Rabs (v - v')) ->
  0 < c -> (forall p, exists m, msize p = Ok m /\ c <= m) ->
  exists pts tris, meshed s msize sd pts tris.
Proof.
  intros Hw HF L1 L2 Hc Hm. 
  assert (HK : 0 <= Rmax 0 K) by apply Rmax_l.
  destruct (mesh_total s F msize (Rmax 0 K) c sd Hw HF HK) as (N & ((pts, tris), info) & E); try assumption.
  - split; intros; (eapply Rle_trans; [first [apply L1|apply L2]; assumption|]); apply Rmult_le_compat_r; try apply Rabs_pos; apply Rmax_r.
  - exists pts, tris, N, info. exact E.
Qed.
Print Assumptions C58_meshing_ends.
(** The hypothesis on the mesh size cannot be dropped: with mesh size zero even a plane is divided for ever. *)
Theorem C58_zero_mesh_size : exists s, (forall u v, sfun s u v = Ok (V3 u v 0)) /\ sbps1 s = [] /\ sbps2 s = [] /\ slen1 s = 1 /\ slen2 s = 1 /\
  forall fuel, surface_mesh fuel s (Some 0) None = Err OutOfFuel.
Proof. exists unit_plate. repeat split. apply zero_size_runs_on. Qed.
Print Assumptions C58_zero_mesh_size.
Example C58_nonvacuous : exists pts tris, meshed cross_plate (fun p => Ok (1 + Rabs (vx p))) 2 pts tris.
Proof.
  apply (C58_meshing_ends cross_plate (fun u v => V3 u v 0) _ 1 1).
  - split; cbn [cross_plate sbps1 sbps2 slen1 slen2 app]; repeat constructor; lra.
  - reflexivity.
  - intros u u' v _ _ _. right. unfold dist3. rewrite Rmult_1_l, <- (Rmult_1_r (Rabs (u - u'))). replace 1 with (norm ex) at 1 by (apply norm_unique; [lra|unfold dot, ex; simpl; ring]).
    rewrite <- norm_scale. f_equal. unfold ex. apply vec_eq; simpl; ring.
  - intros u v v' _ _ _. right. unfold dist3. rewrite Rmult_1_l, <- (Rmult_1_r (Rabs (v - v'))). replace 1 with (norm ey) at 1 by (apply norm_unique; [lra|unfold dot, ey; simpl; ring]).
    rewrite <- norm_scale. f_equal. unfold ey. apply vec_eq; simpl; ring.
  - lra.
  - intros p. eexists. split; [reflexivity|]. pose proof (Rabs_pos (vx p)). lra.
Qed.

(** ** C59 *)
(** Every triangle of the mesh lies in a cell of parameters whose four chords are at most the mesh
    size at the average of its four corner points. *)
Theorem C59_mesh_size fuel s msize sd pts tris info :
  breakpoints_in_order s -> sbps1 s = [] \/ sbps2 s = [] ->
  mesh_surface fuel s msize sd = Ok ((pts, tris), info) ->
  forall k, In k tris -> exists t u0 u1 v0 v1 p00 p01 p10 p11 m,
    tri_on (sfun s) Ok pts t k /\ inside u0 u1 v0 v1 [t] /\ u0 < u1 /\ v0 < v1 /\
    sfun s u0 v0 = Ok p00 /\ sfun s u0 v1 = Ok p01 /\ sfun s u1 v0 = Ok p10 /\ sfun s u1 v1 = Ok p11 /\
    msize (vscale (/4) (vadd (vadd (vadd p00 p01) p10) p11)) = Ok m /\
    dist3 p00 p01 <= m /\ dist3 p10 p11 <= m /\ dist3 p00 p10 <= m /\ dist3 p01 p11 <= m.
Proof.
  intros Hw Hone H k Hk. destruct (mesh_fine fuel s msize sd pts tris info Hw Hone H k Hk) as (t & u0 & u1 & v0 & v1 & A & B & C).
  destruct C as ((O1 & O2) & (p1 & p2 & p3 & p4 & m & F)). exists t, u0, u1, v0, v1, p1, p2, p3, p4, m. tauto.
Qed.
Print Assumptions C59_mesh_size.

(** ** C60 *)
Theorem C60_conforming_refuted : exists s pts tris,
  sbps1 s = [] /\ sbps2 s = [] /\
  (exists N info, forall fuel, (N <= fuel)%nat -> surface_mesh fuel s (Some (201/200)) None = Ok ((pts, tris), info)) /\
  forall T, Forall2 (tri_on (sfun s) Ok pts) T tris -> ~ conforming T.
Proof.
  destruct sheet_hole as (N & pts & tris & info & H & G). exists sheet, pts, tris.
  split; [reflexivity|]. split; [reflexivity|]. split; [exists N, info; exact H|]. intros T HT. apply (proj2 (G T HT)).
Qed.
Print Assumptions C60_conforming_refuted.
(** The same for a box: the 4 x 4 x 2/5 box meshed with mesh size 1. *)
Theorem C60_box_refuted : exists parts s pts tris,
  box (V3 0 0 0) (V3 4 4 (2/5)) = Ok parts /\ In s parts /\
  (exists N info, forall fuel, (N <= fuel)%nat -> surface_mesh fuel s (Some 1) None = Ok ((pts, tris), info)) /\
  forall T, Forall2 (tri_on (sfun s) Ok pts) T tris ->
    (forall t p, In t T -> corner t p -> 0 <= fst p <= slen1 s /\ 0 <= snd p <= slen2 s) -> ~ conforming T.
Proof.
  destruct box_hangs as (parts & s & N & pts & tris & info & H1 & H2 & H3 & H4). exists parts, s, pts, tris.
  split; [exact H1|]. split; [exact H2|]. split; [exists N, info; exact H3|exact H4].
Qed.
Print Assumptions C60_box_refuted.

(** ** C60, the surfaces for which it holds: a single line, circle or arc swept along another one, and
    cylinders. The mesh also has all the properties of [tiled]. *)
Definition meshed_and_conforming (s : surface) (ms : R) (sd : nat) : Prop :=
  exists pts tris T, meshed s (fun _ => Ok ms) sd pts tris /\
    Forall2 (tri_on (sfun s) Ok pts) T tris /\ welded T tris /\ oriented T /\ no_overlap T /\
    inside 0 (slen1 s) 0 (slen2 s) T /\ covers 0 (slen1 s) 0 (slen2 s) T /\ conforming T.
Inductive stroke : path -> Prop :=
| stroke_line a b : a <> b -> stroke (line a b)
| stroke_xz x z r angle : 0 < r -> 0 < angle -> stroke (circle_xz x z r angle)
| stroke_yz y z r angle : 0 < r -> 0 < angle -> stroke (circle_yz y z r angle)
| stroke_xy x y r angle : 0 < r -> 0 < angle -> stroke (circle_xy x y r angle)
| stroke_arc c a b rev p : cross (vsub a c) (vsub b c) <> vzero -> arc c a b rev = Ok p -> stroke p
| stroke_move w p : stroke p -> stroke (path_move w p).
Lemma stroke_even p : stroke p -> even_curve p.
Proof.
  induction 1 as [a b H|x z r angle H1 H2|x z r angle H1 H2|x z r angle H1 H2|c a b rev p H E|w p _ IH].
  - apply line_even, H.
  - apply (circle_even x z r angle H1 H2).
  - apply (circle_even x z r angle H1 H2).
  - apply (circle_even x z r angle H1 H2).
  - apply (arc_even c a b rev p H E).
  - apply move_even, IH.
Qed.
Lemma as_conforming s ms sd : mesh_conforms s ms sd -> meshed_and_conforming s ms sd.
Proof.
  intros (N & pts & tris & info & H & T & G). exists pts, tris, T. split; [exists N, info; exact H|exact G].
Qed.
Theorem C60_extrude_partial w p ms sd : w <> vzero -> stroke p -> 0 < ms -> meshed_and_conforming (extrude w p) ms sd.
Proof. intros Hw Hp Hms. apply as_conforming, extrude_conforms; [exact Hw|apply stroke_even, Hp|exact Hms]. Qed.
Print Assumptions C60_extrude_partial.
Theorem C60_extrude_by_path_partial p p2 p0 ms sd : stroke p -> stroke p2 -> starting_point p2 = Ok p0 -> 0 < ms ->
  exists s, extrude_by_path p2 p = Ok s /\ meshed_and_conforming s ms sd.
Proof.
  intros H1 H2 H3 H4. destruct (extrude_by_path_conforms p p2 p0 ms sd (stroke_even p H1) (stroke_even p2 H2) H3 H4) as (s & E & H).
  exists s. split; [exact E|apply as_conforming, H].
Qed.
Print Assumptions C60_extrude_by_path_partial.
Theorem C60_rectangle_partial a b c d ms sd : a < b -> c < d -> 0 < ms ->
  meshed_and_conforming (surf_rectangle_xz a b c d) ms sd /\ meshed_and_conforming (surf_rectangle_yz a b c d) ms sd /\
  meshed_and_conforming (surf_rectangle_xy a b c d) ms sd.
Proof.
  intros H1 H2 Hms. unfold surf_rectangle_xz, surf_rectangle_yz, surf_rectangle_xy.
  split; [|split]; apply C60_extrude_partial; try exact Hms;
    try (unfold vzero; intros H; injection H; intros; lra); apply stroke_line; intros H; injection H; intros; lra.
Qed.
Print Assumptions C60_rectangle_partial.
(** a line that is parallel to the axis *)
Theorem C60_cylinder_partial r_avg angle a b ms sd : a <> b -> 0 < r_avg -> 0 < ms ->
  (vy a = vy b -> vz a = vz b -> meshed_and_conforming (revolve_x r_avg angle (line a b)) ms sd) /\
  (vx a = vx b -> vz a = vz b -> meshed_and_conforming (revolve_y r_avg angle (line a b)) ms sd) /\
  (vx a = vx b -> vy a = vy b -> meshed_and_conforming (revolve_z r_avg angle (line a b)) ms sd).
Proof.
  intros Hab Hr Hms. 
  split; [|split]; intros E1 E2; apply as_conforming;
    [apply (cylinder_conforms AxisX)|apply (cylinder_conforms AxisY)|apply (cylinder_conforms AxisZ)]; try assumption;
    unfold off_axis, unit_of, ex, ey, ez, dot; apply vec_eq; simpl; rewrite ?E1, ?E2; ring.
Qed.
Print Assumptions C60_cylinder_partial.
Example C60_nonvacuous : meshed_and_conforming (extrude (V3 0 0 3) (circle_xy 0 0 2 (2 * PI))) (1/10) 2.
Proof.
  apply C60_extrude_partial; [unfold vzero; intros H; injection H; intros; lra| |lra].
  apply stroke_xy; [lra|]. pose proof PI_RGT_0. lra.
Qed.
