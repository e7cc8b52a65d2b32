(** Surfaces on which the distance of two points in the direction of a parameter depends on the
    difference of the parameters only: swept lines, circles and arcs, and cylinders. *)
From Coq Require Import Reals Lra Psatz Sorted.
From Verif Require Import Base BaseFacts Vec GeomModel GeomFacts QuadModel KronrodFacts PathModel PathSpec PathFacts PathOpsFacts PolyFacts
  SurfaceModel SurfaceFacts MesherModel MesherFacts MesherRun MesherSpec MesherTile MesherTri MesherSurf MesherEnd MesherWhole
  MesherTotal MesherGentle MesherShapes MesherPaths MesherUniform.
Local Open Scope R_scope.

Definition conforms (s : surface) (pts : list vec3) (tris : list (nat * nat * nat)) : Prop :=
  exists T, Forall2 (tri_on (sfun s) Ok pts) T tris /\ welded T tris /\ oriented T /\ no_overlap T /\
    inside 0 (slen1 s) 0 (slen2 s) T /\ covers 0 (slen1 s) 0 (slen2 s) T /\ conforming T.
Definition mesh_conforms (s : surface) (ms : R) (sd : nat) : Prop := exists N pts tris info,
  (forall fuel, (N <= fuel)%nat -> mesh_surface fuel s (fun _ => Ok ms) sd = Ok ((pts, tris), info)) /\ conforms s pts tris.

Lemma even_conforms s F K gu gv ms sd :
  sbps1 s = [] -> sbps2 s = [] -> 0 < slen1 s -> 0 < slen2 s -> 0 < ms ->
  section_total s F ((0, slen1 s), (0, slen2 s)) -> gentle F (fun _ _ _ _ => True) ->
  0 <= K -> lipschitz F K 0 (slen1 s) 0 (slen2 s) ->
  (forall u u' v, dist3 (F u v) (F u' v) = gu (u - u')) ->
  (forall u v v', dist3 (F u v) (F u v') = gv (v - v')) ->
  mesh_conforms s ms sd.
Proof.
  intros E1 E2 L1 L2 Hms HF Hg HK HL Hu Hv. set (r := ((0, slen1 s), (0, slen2 s)) : rect) in *.
  set (ghor := fun sh : shape => gv (- (slen2 s / pw (fst (fst sh)) * INR (snd sh)))).
  set (gver := fun sh : shape => gu (- (slen1 s / pw (fst (fst sh)) * INR (snd (fst sh))))).
  assert (Hr1 : fst (fst r) <= snd (fst r)) by (unfold r; cbn [fst snd]; lra). assert (Hr2 : fst (snd r) <= snd (snd r)) by (unfold r; cbn [fst snd]; lra).
  assert (Hdec : forall q, wfq q -> decision (index_to_point (rsection s r)) (decide_split (fun _ => Ok ms)) q =
     Ok ((fun sh => (too_long ms (ghor sh) (gver sh), too_long ms (gver sh) (ghor sh))) (shape_of q))).
  { intros q W. rewrite (decision_at s F r) by assumption. cbn [bind]. cbv beta. destruct W as (W1 & W2 & W3 & W4).
    assert (A : q_hor F r q = ghor (shape_of q)).
    { unfold q_hor, chord_v, ghor, shape_of. rewrite !Hv, Rmax_left by lra. cbn [fst snd]. f_equal. rewrite minus_INR by lia. unfold cv, r. cbn [fst snd]. field. apply Rgt_not_eq, pw_pos. }
    assert (B : q_ver F r q = gver (shape_of q)).
    { unfold q_ver, chord_u, gver, shape_of. rewrite !Hu, Rmax_left by lra. cbn [fst snd]. f_equal. rewrite minus_INR by lia. unfold cu, r. cbn [fst snd]. field. apply Rgt_not_eq, pw_pos. }
    rewrite A, B. reflexivity. }
  destruct (start_ends s F r (fun _ => Ok ms) K ms) with (sd := sd) as (n & Hn); try assumption.
  { intros p. exists ms. split; [reflexivity|lra]. }
  destruct (uniform_mesh s (fun _ => Ok ms) sd _ E1 E2 L1 L2 Hdec n Hn) as (N & HN).
  destruct (HN N (Nat.le_refl N)) as (pts & tris & info & EM & T & T1 & T2 & T3 & T4 & T5 & T6 & T7).
  exists N, pts, tris, info. split; [intros fuel Hf; exact (mesher_mono _ _ _ _ _ _ _ _ Hf EM)|].
  exists T. repeat (split; [assumption|]). split; [|assumption]. apply T7. intros qs Hqs.
  intros X Y HX HY. eapply (gentle_cover s F r (fun _ _ _ _ => True) ms sd); try eassumption; auto; lra.
Qed.

(** ** Curves *)
Definition even_curve (p : path) : Prop := pbps p = [] /\ 0 < plen p /\
  exists q K g, 0 <= K /\ bends q /\ slow q K /\ (forall u, 0 <= u <= plen p -> pfun p u = Ok (q u)) /\
    forall u u', dist3 (q u) (q u') = g (u - u').
Lemma line_even a b : a <> b -> even_curve (line a b).
Proof.
  intros H. split; [reflexivity|]. pose proof (dist3_pos a b H) as Hd. split; [exact Hd|].
  exists (along a (vscale (/ dist3 a b) (vsub b a))), (norm (vscale (/ dist3 a b) (vsub b a))), (fun x => Rabs x * norm (vscale (/ dist3 a b) (vsub b a))).
  split; [apply norm_nonneg|]. split; [apply along_bends|]. split; [apply along_slow|]. split; [|intros; apply along_dist].
  intros u _. replace u with (u / dist3 a b * plen (line a b)) at 1 by (cbn [line plen]; unfold dist3 in *; field; lra).
  rewrite line_fun by exact H. f_equal. unfold along. apply vec_eq; simpl; field; lra.
Qed.
Lemma around_even p c e f r : 0 < r -> dot e e = 1 -> dot f f = 1 -> dot e f = 0 -> pbps p = [] -> 0 < plen p ->
  (forall u, pfun p u = Ok (around c e f r u)) -> even_curve p.
Proof.
  intros Hr He Hf Hef E L Hp. split; [exact E|]. split; [exact L|].
  exists (around c e f r), 1, (fun x => 2 * r * Rabs (sin (x / (2 * r)))). split; [lra|]. split; [apply around_bends; assumption|].
  split; [apply around_slow; assumption|]. split; [intros; apply Hp|]. intros. apply around_dist; assumption.
Qed.
Lemma circle_even x0 z0 r angle : 0 < r -> 0 < angle ->
  even_curve (circle_xz x0 z0 r angle) /\ even_curve (circle_yz x0 z0 r angle) /\ even_curve (circle_xy x0 z0 r angle).
Proof.
  intros Hr Ha. assert (HL : 0 < angle * r) by nra.
  split; [|split]; [apply (around_even _ (V3 x0 0 z0) ex ez r)|apply (around_even _ (V3 0 x0 z0) ey ez r)|apply (around_even _ (V3 x0 z0 0) ex ey r)];
    try reflexivity; try assumption; try (unfold dot, ex, ey, ez; simpl; ring); intros u;
    cbn [circle_xz circle_yz circle_xy path_move path_map pfun]; rewrite Rdiv_py_ok by lra; cbn [bind]; f_equal; unfold around, move, ex, ey, ez; apply vec_eq; simpl; ring.
Qed.
Lemma arc_even center start end_ reverse p :
  cross (vsub start center) (vsub end_ center) <> vzero -> arc center start end_ reverse = Ok p -> even_curve p.
Proof.
  intros Hc E. destruct (arc_ok center start end_ reverse Hc) as (x & y & r & th & p' & F & E' & L & B & Hf).
  rewrite E in E'. injection E' as <-. destruct F as [(Fx & Fy & Fxy) Fr Fp Fs Ft Fe].
  destruct (circle_at_around center x y r (if reverse then - / r else / r) Fp) as (y' & Hy' & Ha).
  { destruct reverse; [right|left]; field; lra. }
  assert (D1 : dot y' y' = 1) by (destruct Hy' as [->| ->]; [exact Fy|]; rewrite <- Fy; unfold dot; simpl; ring).
  assert (D2 : dot x y' = 0) by (destruct Hy' as [->| ->]; [exact Fxy|]; transitivity (- dot x y); [unfold dot; simpl; ring|lra]).
  apply (around_even p center x y' r); try assumption; [rewrite L; destruct reverse; nra|]. intros u. rewrite Hf, Ha. reflexivity.
Qed.
Lemma move_even w p : even_curve p -> even_curve (path_move w p).
Proof.
  intros (A & B & q & K & g & C & D & E & F & G). split; [exact A|]. split; [exact B|].
  assert (M : forall a b, dist3 (move w a) (move w b) = dist3 a b) by (intros; unfold dist3, move; f_equal; vec_ring).
  exists (fun u => move w (q u)), K, g. split; [exact C|]. split; [intros x y; rewrite !M; apply D|]. split; [intros x y; rewrite M; apply E|].
  split; [intros u Hu; cbn [path_move path_map pfun]; rewrite (F u Hu); reflexivity|]. intros. rewrite M. apply G.
Qed.

(** ** Surfaces *)
Lemma sweep_conforms s p1 p2 w ms sd : even_curve p1 -> even_curve p2 -> 0 < ms ->
  sbps1 s = pbps p1 -> slen1 s = plen p1 -> sbps2 s = pbps p2 -> slen2 s = plen p2 ->
  (forall u v a b, 0 <= u <= plen p1 -> 0 <= v <= plen p2 -> pfun p1 u = Ok a -> pfun p2 v = Ok b -> sfun s u v = Ok (vadd a (vadd b w))) ->
  mesh_conforms s ms sd.
Proof.
  intros (A1 & B1 & q1 & K1 & g1 & C1 & D1 & F1 & G1 & H1) (A2 & B2 & q2 & K2 & g2 & C2 & D2 & F2 & G2 & H2) Hms E1 E2 E3 E4 Hs.
  set (q2' := fun v => vadd (q2 v) w).
  assert (M : forall x y, dist3 (q2' x) (q2' y) = dist3 (q2 x) (q2 y)) by (intros; unfold q2', dist3; f_equal; vec_ring).
  destruct (sweep_lipschitz q1 q2' K1 K2 0 (slen1 s) 0 (slen2 s)) as (K & HK & HL); try assumption; [intros x y; rewrite M; apply F2|].
  apply (even_conforms s (sweep q1 q2') K g1 g2); try congruence; try (rewrite ?E2, ?E4; assumption).
  - intros u v Hu Hv. cbn [fst snd] in *. rewrite E2 in Hu. rewrite E4 in Hv. unfold sweep, q2'. apply Hs; try assumption; [apply G1, Hu|apply G2, Hv].
  - apply sweep_gentle; [exact D1|]. intros x y. rewrite !M. apply D2.
  - intros. rewrite sweep_u. apply H1.
  - intros. rewrite sweep_v, M. apply H2.
Qed.
Lemma extrude_conforms w p ms sd : w <> vzero -> even_curve p -> 0 < ms -> mesh_conforms (extrude w p) ms sd.
Proof.
  intros Hw Hp Hms. assert (Hn : norm w <> 0) by (intros E; apply norm_zero in E; exact (Hw E)).
  assert (Hne : vzero <> w) by (intros E; apply Hw; symmetry; exact E).
  assert (Lw : plen (line vzero w) = norm w) by (cbn [line plen]; apply norm_eq; unfold dot, vsub, vzero; simpl; ring).
  apply (sweep_conforms (extrude w p) p (line vzero w) vzero); try assumption; try reflexivity; [apply line_even, Hne|symmetry; exact Lw|].
  intros u v a b Hu Hv Ha Hb. cbn [extrude sfun]. rewrite Ha. cbn [bind]. rewrite Rdiv_py_ok by exact Hn. cbn [bind].
  rewrite Lw in Hv. assert (Hvw : v = v / norm w * plen (line vzero w)) by (rewrite Lw; field; exact Hn). rewrite Hvw in Hb.
  rewrite line_fun in Hb by exact Hne. injection Hb as <-. f_equal. unfold vzero. apply vec_eq; simpl; ring.
Qed.
Lemma extrude_by_path_conforms p p2 p0 ms sd : even_curve p -> even_curve p2 -> starting_point p2 = Ok p0 -> 0 < ms ->
  exists s, extrude_by_path p2 p = Ok s /\ mesh_conforms s ms sd.
Proof.
  intros Hp Hp2 H0 Hms. unfold extrude_by_path. rewrite H0. cbn [bind]. eexists. split; [reflexivity|].
  apply (sweep_conforms _ p p2 (vscale (-1) p0)); try assumption; try reflexivity.
  intros u v a b Hu Hv Ha Hb. cbn [sfun]. rewrite Ha, Hb. cbn [bind]. f_equal. vec_ring.
Qed.
(** a line parallel to the axis *)
Lemma cylinder_conforms ax r_avg angle a b ms sd : a <> b -> off_axis ax a = off_axis ax b -> 0 < r_avg -> 0 < ms ->
  mesh_conforms (revolve_about ax r_avg angle (line a b)) ms sd.
Proof.
  intros Hab Hax Hr Hms. pose proof PI_RGT_0 as HP. pose proof (dist3_pos a b Hab) as Hd.
  set (d := vscale (/ dist3 a b) (vsub b a)). set (k := sense ax * angle / (2 * PI * r_avg)).
  assert (E1 : sbps1 (revolve_about ax r_avg angle (line a b)) = [] /\ slen1 (revolve_about ax r_avg angle (line a b)) = dist3 a b /\
    sbps2 (revolve_about ax r_avg angle (line a b)) = [] /\ slen2 (revolve_about ax r_avg angle (line a b)) = 2 * PI * r_avg) by (destruct ax; repeat split).
  destruct E1 as (E1 & E2 & E3 & E4). rewrite <- E2 in Hd.
  assert (Hlen : 0 < slen2 (revolve_about ax r_avg angle (line a b))) by (rewrite E4; apply Rmult_lt_0_compat; lra).
  destruct (turned_lipschitz ax k a d 0 (slen1 (revolve_about ax r_avg angle (line a b))) 0 (slen2 (revolve_about ax r_avg angle (line a b)))) as (K & HK & HL).
  assert (Hoff : forall u, off_axis ax (vadd a (vscale u d)) = off_axis ax a).
  { intros u. transitivity (vadd (off_axis ax a) (vscale (u / dist3 a b) (vsub (off_axis ax b) (off_axis ax a)))).
    - rewrite E2 in Hd. destruct ax; unfold off_axis, d, unit_of, ex, ey, ez, dot; apply vec_eq; simpl; field; lra.
    - rewrite <- Hax. vec_ring. }
  apply (even_conforms _ (turned ax k a d) K (fun x => Rabs x * norm d) (fun x => 2 * Rabs (sin (k * x / 2)) * norm (off_axis ax a))); try assumption.
  - intros u v Hu Hv. cbn [fst snd] in *.
    assert (Hline : pfun (line a b) u = Ok (vadd a (vscale u d))).
    { rewrite E2 in Hd. replace u with (u / dist3 a b * plen (line a b)) at 1 by (cbn [line plen]; unfold dist3 in *; field; lra).
      rewrite line_fun by exact Hab. f_equal. unfold d. apply vec_eq; simpl; field; lra. }
    rewrite (revolve_is_rotation ax r_avg angle (line a b) u v (vadd a (vscale u d))) by (try lra; exact Hline).
    unfold turned. do 2 f_equal. unfold k. field. lra.
  - apply turned_gentle.
  - intros. apply turned_u.
  - intros u v v'. rewrite turned_v, Hoff. replace ((k * v - k * v') / 2) with (k * (v - v') / 2) by field. reflexivity.
Qed.
