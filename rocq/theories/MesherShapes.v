(** Tiling and termination for whole families of surfaces. *)
From Coq Require Import Reals Lra Psatz Sorted.
From Verif Require Import Base BaseFacts Vec GeomModel GeomFacts QuadModel KronrodFacts PathModel PathSpec PathFacts PolyFacts
  SurfaceModel SurfaceFacts MesherModel MesherFacts MesherRun MesherSpec MesherTile MesherTri MesherSurf MesherEnd MesherWhole
  MesherTotal MesherGentle.
Local Open Scope R_scope.

Definition orderly (s : surface) (sd : nat) (r : rect) : Prop :=
  exists F D K, section_total s F r /\ gentle F D /\
    (forall i j, (i < 2 ^ sd)%nat -> (j < 2 ^ sd)%nat -> D (cu r sd i) (cu r sd (i + 1)) (cv r sd j) (cv r sd (j + 1))) /\
    0 <= K /\ lipschitz F K (fst (fst r)) (snd (fst r)) (fst (snd r)) (snd (snd r)).

(** the triangles of a mesh, seen in the parameter rectangle of the surface, tile it *)
Definition tiles (s : surface) (pts : list vec3) (tris : list (nat * nat * nat)) : Prop :=
  exists T, Forall2 (tri_on (sfun s) Ok pts) T tris /\ welded T tris /\ oriented T /\ no_overlap T /\
    inside 0 (slen1 s) 0 (slen2 s) T /\ covers 0 (slen1 s) 0 (slen2 s) T.

Lemma orderly_tiles s ms sd : well_cut s -> sbps1 s = [] \/ sbps2 s = [] -> 0 < ms ->
  (forall r, In r (rects s) -> orderly s sd r) ->
  exists N pts tris info, (forall fuel, (N <= fuel)%nat -> mesh_surface fuel s (fun _ => Ok ms) sd = Ok ((pts, tris), info)) /\
    tiles s pts tris.
Proof.
  intros Hw Hone Hms Hr. destruct (rects_spec s Hw) as (P1 & _).
  destruct (mesh_total_sections s (fun _ => Ok ms) ms sd Hw) as (N & ((pts, tris), ((depth, maps), qss)) & E).
  - intros r Hin. destruct (Hr r Hin) as (F & D & K & H1 & H2 & H3 & H4 & H5). exists F, K. auto.
  - exact Hms.
  - intros p. exists ms. split; [reflexivity|lra].
  - exists N, pts, tris, (depth, maps, qss). split; [exact E|].
    destruct (mesh_surface_whole N s _ sd pts tris depth maps qss Hw Hone (E N (Nat.le_refl N))) as (_ & _ & T & T1 & T6 & T2 & T3 & T4 & T5).
    exists T. repeat (split; [assumption|]). apply T5. intros r qs Hin Hq.
    destruct (Hr r Hin) as (F & D & K & H1 & H2 & H3 & H4 & H5). rewrite Forall_forall in P1. destruct (P1 r Hin) as (A1 & A2).
    intros X Y HX HY. eapply (gentle_cover s F r D ms sd); try eassumption; lra.
Qed.

(** ** Polylines are straight between their breakpoints *)
Definition straight (p : path) : Prop :=
  StronglySorted Rlt (cuts (pbps p) (plen p)) /\
  forall ab, In ab (intervals (cuts (pbps p) (plen p))) ->
    exists a d, forall u, fst ab <= u <= snd ab -> pfun p u = Ok (along a d u).
(** no two consecutive corners are equal *)
Definition proper (cs : list vec3) : Prop :=
  forall k a b, nth_error cs k = Some a -> nth_error cs (S k) = Some b -> a <> b.

Lemma seq_ends n : (2 <= n)%nat -> seq 0 n = 0%nat :: seq 1 (n - 2) ++ [(n - 1)%nat].
Proof.
  intros H. destruct n as [|[|n]]; try lia. cbn [Nat.sub]. rewrite Nat.sub_0_r.
  change (seq 0 (S (S n))) with (0%nat :: seq 1 (S n)). rewrite seq_S. reflexivity.
Qed.
Lemma dist3_pos a b : a <> b -> 0 < dist3 a b.
Proof.
  intros H. destruct (Rle_lt_or_eq_dec 0 (dist3 a b) (norm_nonneg _)) as [K|K]; [exact K|]. exfalso. apply H.
  symmetry in K. apply norm_zero in K. destruct a, b. unfold vsub, vzero in K. simpl in K. injection K as K1 K2 K3. f_equal; lra.
Qed.
Lemma strongly_sorted_map f n : (forall k, (S k < n)%nat -> f k < f (S k)) -> StronglySorted Rlt (map f (seq 0 n)).
Proof.
  intros H.
  assert (L : forall m k, (k + m < n)%nat -> (0 < m)%nat -> f k < f (k + m)%nat).
  { intros m. induction m as [|m IH]; intros k Hk Hm; [lia|]. destruct m as [|m].
    - rewrite Nat.add_1_r. apply H. lia.
    - apply Rlt_trans with (f (k + S m)%nat); [apply IH; lia|]. rewrite (Nat.add_succ_r k (S m)). apply H. lia. }
  assert (G : forall m k, (k + m <= n)%nat -> StronglySorted Rlt (map f (seq k m))).
  { intros m. induction m as [|m IH]; intros k Hk; cbn [seq map]; constructor.
    - apply IH. lia.
    - apply Forall_map, Forall_forall. intros x Hx. apply in_seq in Hx. replace x with (k + (x - k))%nat by lia. apply L; lia. }
  apply G. lia.
Qed.
Lemma follows_cuts p cs : (2 <= length cs)%nat -> follows_polyline p cs ->
  cuts (pbps p) (plen p) = map (fun k => polylen (firstn (S k) cs)) (seq 0 (length cs)).
Proof.
  intros Hl (H1 & H2 & _). unfold cuts. rewrite H1, H2, (seq_ends _ Hl). cbn [map]. rewrite map_app. cbn [map].
  f_equal; [destruct cs as [|a cs]; reflexivity|]. do 2 f_equal. replace (S (length cs - 1)) with (length cs) by lia. rewrite firstn_all. reflexivity.
Qed.
Lemma follows_straight p cs : (2 <= length cs)%nat -> proper cs -> follows_polyline p cs -> straight p.
Proof.
  intros Hl Hp HF. unfold straight. rewrite (follows_cuts p cs Hl HF).
  split.
  - apply strongly_sorted_map. intros k Hk.
    destruct (nth_error_total cs k) as (a & Ha); [lia|]. destruct (nth_error_total cs (S k)) as (b & Hb); [lia|].
    rewrite (polylen_step cs k a b Ha Hb). pose proof (dist3_pos a b (Hp k a b Ha Hb)). lra.
  - intros ab Hin. apply In_nth_error in Hin. destruct Hin as (k & Hk). apply intervals_nth in Hk. destruct Hk as (K1 & K2).
    rewrite nth_error_map in K1, K2.
    destruct (nth_error (seq 0 (length cs)) k) as [x|] eqn:Ex; [|discriminate]. destruct (nth_error (seq 0 (length cs)) (S k)) as [y|] eqn:Ey; [|discriminate].
    pose proof (nth_error_lt _ _ _ Ey) as Ly. rewrite seq_length in Ly.
    assert (X : x = k) by (apply (nth_error_nth _ _ 0%nat) in Ex; rewrite seq_nth in Ex by lia; lia).
    assert (Y : y = S k) by (apply (nth_error_nth _ _ 0%nat) in Ey; rewrite seq_nth in Ey by lia; lia). subst x y.
    destruct (nth_error_total cs k) as (a & Ha); [lia|]. destruct (nth_error_total cs (S k)) as (b & Hb); [lia|].
    cbn [option_map] in K1, K2. apply some_inj in K1, K2. rewrite (polylen_step cs k a b Ha Hb) in K2.
    pose proof (dist3_pos a b (Hp k a b Ha Hb)) as Hd. destruct HF as (_ & _ & HF).
    exists (vsub a (vscale (fst ab / dist3 a b) (vsub b a))), (vscale (/ dist3 a b) (vsub b a)). intros u Hu.
    replace u with (polylen (firstn (S k) cs) + (u - fst ab)) at 1 by lra. rewrite (HF k a b (u - fst ab) Ha Hb) by lra.
    f_equal. unfold along. apply vec_eq; simpl; field; lra.
Qed.
Lemma line_straight a b : a <> b -> straight (line a b).
Proof.
  intros H. apply (follows_straight _ [a; b]); [cbn; lia| |apply follows_line, H].
  intros [|[|k]] x y Hx Hy; cbn in *; try discriminate. injection Hx as <-. injection Hy as <-. exact H.
Qed.
Lemma straight_pos p : straight p -> 0 < plen p.
Proof.
  intros (H & _). unfold cuts in H. inversion H as [|? ? _ H2]; subst. rewrite Forall_forall in H2. apply H2, in_or_app. right; left; reflexivity.
Qed.

Lemma no_cuts L : 0 < L -> StronglySorted Rlt (cuts [] L).
Proof. intros H. unfold cuts. cbn. repeat constructor. exact H. Qed.

(** ** Extrusions *)
Lemma extrude_orderly w p sd : w <> vzero -> straight p -> forall r, In r (rects (extrude w p)) -> orderly (extrude w p) sd r.
Proof.
  intros Hw (Hs & Hp) (ab, cd) Hin. unfold rects in Hin. apply in_prod_iff in Hin. destruct Hin as (H1 & H2).
  cbn [extrude sbps1 slen1] in H1. destruct (Hp ab H1) as (a & d & Hf).
  assert (Hn : norm w <> 0) by (intros E; apply norm_zero in E; exact (Hw E)).
  pose proof (norm_nonneg w). destruct (sweep_lipschitz (along a d) (along vzero (vscale (/ norm w) w)) (norm d) (norm (vscale (/ norm w) w))
     (fst ab) (snd ab) (fst cd) (snd cd)) as (K & HK & HL); try apply norm_nonneg; try apply along_slow.
  exists (sweep (along a d) (along vzero (vscale (/ norm w) w))), (fun _ _ _ _ => True), K.
  split; [|split; [apply sweep_gentle; apply along_bends|]; split; [auto|]; split; [exact HK|exact HL]].
  intros u v Hu Hv. cbn [fst snd] in *. cbn [extrude sfun]. rewrite Hf by exact Hu. cbn [bind]. rewrite Rdiv_py_ok by exact Hn. cbn [bind].
  f_equal. unfold sweep, along, vzero. apply vec_eq; simpl; field; exact Hn.
Qed.
Lemma extrude_tiles w p ms sd : w <> vzero -> straight p -> 0 < ms ->
  exists N pts tris info, (forall fuel, (N <= fuel)%nat -> mesh_surface fuel (extrude w p) (fun _ => Ok ms) sd = Ok ((pts, tris), info)) /\
    tiles (extrude w p) pts tris.
Proof.
  intros Hw Hp Hms. apply orderly_tiles; [|right; reflexivity|exact Hms|apply extrude_orderly; assumption].
  split; [apply Hp|]. cbn [extrude sbps2 slen2]. apply no_cuts.
  destruct (Rle_lt_or_eq_dec 0 (norm w) (norm_nonneg w)) as [K|K]; [exact K|]. symmetry in K. apply norm_zero in K. contradiction.
Qed.

(** ** Surfaces of revolution *)
Lemma revolve_orderly ax r_avg angle p sd : 0 < r_avg -> straight p ->
  forall r, In r (rects (revolve_about ax r_avg angle p)) -> orderly (revolve_about ax r_avg angle p) sd r.
Proof.
  intros Hr (Hs & Hp) (ab, cd) Hin. unfold rects in Hin. apply in_prod_iff in Hin. destruct Hin as (H1 & H2).
  assert (E1 : sbps1 (revolve_about ax r_avg angle p) = pbps p /\ slen1 (revolve_about ax r_avg angle p) = plen p) by (destruct ax; split; reflexivity).
  destruct E1 as (E1 & E2). rewrite E1, E2 in H1. destruct (Hp ab H1) as (a & d & Hf).
  set (k := sense ax * angle / (2 * PI * r_avg)).
  destruct (turned_lipschitz ax k a d (fst ab) (snd ab) (fst cd) (snd cd)) as (K & HK & HL).
  exists (turned ax k a d), (fun _ _ _ _ => True), K.
  split; [|split; [apply turned_gentle|]; split; [auto|]; split; [exact HK|exact HL]].
  intros u v Hu Hv. cbn [fst snd] in *. rewrite (revolve_is_rotation ax r_avg angle p u v (along a d u)) by (try lra; apply Hf; exact Hu).
  unfold turned. do 2 f_equal. unfold k. pose proof PI_RGT_0. field. lra.
Qed.
Lemma revolve_tiles ax r_avg angle p ms sd : 0 < r_avg -> straight p -> 0 < ms ->
  exists N pts tris info, (forall fuel, (N <= fuel)%nat ->
     mesh_surface fuel (revolve_about ax r_avg angle p) (fun _ => Ok ms) sd = Ok ((pts, tris), info)) /\
    tiles (revolve_about ax r_avg angle p) pts tris.
Proof.
  intros Hr Hp Hms. apply orderly_tiles; [|right; destruct ax; reflexivity|exact Hms|apply revolve_orderly; assumption].
  pose proof PI_RGT_0. assert (0 < 2 * PI * r_avg) by (apply Rmult_lt_0_compat; lra).
  split; destruct ax; cbn [revolve_about revolve_x revolve_y revolve_z sbps1 slen1 sbps2 slen2]; try apply Hp; apply no_cuts; assumption.
Qed.

(** ** The sphere *)
Lemma sphere_tiles radius ms sd : 0 < radius -> (1 <= sd)%nat -> 0 < ms ->
  exists N pts tris info, (forall fuel, (N <= fuel)%nat -> mesh_surface fuel (sphere radius) (fun _ => Ok ms) sd = Ok ((pts, tris), info)) /\
    tiles (sphere radius) pts tris.
Proof.
  intros Hr Hsd Hms. pose proof PI_RGT_0 as HP. apply orderly_tiles; [|left; reflexivity|exact Hms|].
  - split; cbn [sphere sbps1 sbps2 slen1 slen2]; apply no_cuts; nra.
  - intros r Hin. unfold rects in Hin. cbn in Hin. destruct Hin as [<-|[]].
    destruct (ball_lipschitz radius 0 (2 * PI * radius) Hr) as (K & HK & HL).
    exists (ball radius), (hemisphere radius), K. split; [|split; [apply ball_gentle, Hr|]; split; [|split; [exact HK|exact HL]]].
    + intros u v _ _. cbn [sphere sfun]. rewrite !Rdiv_py_ok by lra. reflexivity.
    + intros i j Hi Hj. destruct sd as [|sd]; [lia|].
      set (r := (0, 2 * PI * radius, (0, PI * radius))).
      assert (V0 : 0 <= cv r (S sd) j) by (apply (cv_range r (S sd) j); [unfold r; cbn [fst snd]; nra|lia]).
      assert (V1 : cv r (S sd) (j + 1) <= PI * radius) by (apply (cv_range r (S sd) (j + 1)); [unfold r; cbn [fst snd]; nra|lia]).
      assert (E : forall x, cv r (S sd) x = PI * radius / 2 * (INR x / pw sd)).
      { intros x. unfold cv, r. cbn [fst snd]. rewrite pw_S. pose proof (pw_pos sd). field. lra. }
      pose proof (pw_pos sd) as Hpw. assert (Hq : 0 < PI * radius / 2) by nra.
      assert (I : forall x y, (x <= y)%nat -> INR x / pw sd <= INR y / pw sd).
      { intros x y Hxy. apply le_INR in Hxy. apply Rmult_le_compat_r; [apply Rlt_le, Rinv_0_lt_compat, Hpw|exact Hxy]. }
      assert (One : INR (2 ^ sd) / pw sd = 1) by (rewrite INR_pow; field; lra).
      split; [exact V0|]. split; [|split; [exact V1|]].
      * rewrite !E. apply Rmult_le_compat_l; [lra|]. apply I. lia.
      * rewrite !E. destruct (Nat.le_gt_cases (j + 1) (2 ^ sd)) as [Hc|Hc].
        -- left. apply I in Hc. rewrite One in Hc. nra.
        -- right. assert (Hc' : (2 ^ sd <= j)%nat) by lia. apply I in Hc'. rewrite One in Hc'. nra.
Qed.

(** ** Moved surfaces, disks, spanned surfaces and boxes *)
Lemma gentle_move w F D : gentle F D -> gentle (fun u v => move w (F u v)) D.
Proof.
  assert (E : forall a b, dist3 (move w a) (move w b) = dist3 a b) by (intros; unfold dist3, move; f_equal; vec_ring).
  intros (H1 & H2). split; intros; unfold chord_u, chord_v; rewrite !E; [apply H1|apply H2]; assumption.
Qed.
Lemma move_orderly w s sd r : orderly s sd r -> orderly (surf_move w s) sd r.
Proof.
  intros (F & D & K & H1 & H2 & H3 & H4 & (L1 & L2)). exists (fun u v => move w (F u v)), D, K.
  assert (E : forall a b, dist3 (move w a) (move w b) = dist3 a b) by (intros; unfold dist3, move; f_equal; vec_ring).
  split; [|split; [apply gentle_move, H2|]; split; [exact H3|]; split; [exact H4|]].
  - intros u v Hu Hv. cbn [surf_move surf_map sfun]. rewrite (H1 u v Hu Hv). reflexivity.
  - split; intros; rewrite E; [apply L1|apply L2]; assumption.
Qed.
Lemma disk_of ax r_avg w p ms sd : 0 < r_avg -> straight p -> 0 < ms ->
  exists N pts tris info, (forall fuel, (N <= fuel)%nat ->
     mesh_surface fuel (surf_move w (revolve_about ax r_avg (2 * PI) p)) (fun _ => Ok ms) sd = Ok ((pts, tris), info)) /\
    tiles (surf_move w (revolve_about ax r_avg (2 * PI) p)) pts tris.
Proof.
  intros Hr Hp Hms. apply orderly_tiles; [|right; destruct ax; reflexivity|exact Hms|intros r Hin; apply move_orderly, revolve_orderly; assumption].
  pose proof PI_RGT_0. assert (0 < 2 * PI * r_avg) by (apply Rmult_lt_0_compat; lra).
  split; destruct ax; cbn [surf_move surf_map revolve_about revolve_x revolve_y revolve_z sbps1 slen1 sbps2 slen2]; try apply Hp; apply no_cuts; assumption.
Qed.

Lemma line_fun a b k : a <> b -> pfun (line a b) (k * plen (line a b)) = Ok (vadd (vscale (1 - k) a) (vscale k b)).
Proof.
  intros H. cbn [line pfun plen]. assert (Hn : norm (vsub a b) <> 0) by (pose proof (dist3_pos a b H); unfold dist3 in *; lra).
  rewrite Rdiv_py_ok by exact Hn. cbn [bind]. replace (k * norm (vsub a b) / norm (vsub a b)) with k by (field; exact Hn). reflexivity.
Qed.
Lemma spanned_tiles a b c d ms sd : a <> b -> c <> d -> a <> c \/ b <> d -> 0 < ms ->
  exists s, spanned_by_paths (line a b) (line c d) = Ok s /\
  exists N pts tris info, (forall fuel, (N <= fuel)%nat -> mesh_surface fuel s (fun _ => Ok ms) sd = Ok ((pts, tris), info)) /\
    tiles s pts tris.
Proof.
  intros Hab Hcd Hne Hms. unfold spanned_by_paths, starting_point, endpoint.
  pose proof (line_fun a b 0 Hab) as A0. pose proof (line_fun c d 0 Hcd) as C0. rewrite Rmult_0_l in A0, C0.
  pose proof (line_fun a b 1 Hab) as A1. pose proof (line_fun c d 1 Hcd) as C1. rewrite Rmult_1_l in A1, C1.
  rewrite A0, C0, A1, C1. cbn [bind pbps line mapM app].
  assert (EA : vadd (vscale (1 - 0) a) (vscale 0 b) = a) by (apply vec_eq; simpl; ring).
  assert (EC : vadd (vscale (1 - 0) c) (vscale 0 d) = c) by (apply vec_eq; simpl; ring).
  assert (EB : vadd (vscale (1 - 1) a) (vscale 1 b) = b) by (apply vec_eq; simpl; ring).
  assert (ED : vadd (vscale (1 - 1) c) (vscale 1 d) = d) by (apply vec_eq; simpl; ring).
  rewrite EA, EB, EC, ED. change (Rsorted_list []) with (@nil R).
  set (L1 := Rmax (plen (line a b)) (plen (line c d))). set (L2 := (norm (vsub a c) + norm (vsub b d)) / 2).
  assert (HL1 : 0 < L1).
  { unfold L1. eapply Rlt_le_trans; [|apply Rmax_l]. cbn [line plen]. apply dist3_pos, Hab. }
  assert (HL2 : 0 < L2).
  { unfold L2. pose proof (norm_nonneg (vsub a c)). pose proof (norm_nonneg (vsub b d)).
    destruct Hne as [Hne|Hne]; apply dist3_pos in Hne; unfold dist3 in Hne; lra. }
  eexists. split; [reflexivity|]. apply orderly_tiles; [|left; reflexivity|exact Hms|].
  - split; cbn [sbps1 sbps2 slen1 slen2]; apply no_cuts; assumption.
  - intros r Hin. unfold rects in Hin. cbn in Hin. destruct Hin as [<-|[]]. cbn [slen1 slen2].
    set (e := vscale (/ L1) (vsub b a)). set (f := vscale (/ L2) (vsub c a)).
    set (g := vscale (/ (L1 * L2)) (vadd (vsub (vsub a b) c) d)).
    destruct (bilinear_lipschitz a e f g 0 L1 0 L2) as (K & HK & HL).
    exists (bilinear a e f g), (fun _ _ _ _ => True), K.
    split; [|split; [apply bilinear_gentle|]; split; [auto|]; split; [exact HK|exact HL]].
    intros u v _ _. cbn [sfun]. rewrite Rdiv_py_ok by lra. cbn [bind]. rewrite !line_fun by assumption. cbn [bind].
    rewrite Rdiv_py_ok by lra. cbn [bind]. f_equal. unfold bilinear, e, f, g. apply vec_eq; simpl; field; lra.
Qed.

Lemma box_tiles p0 p1 ms sd : vx p0 <> vx p1 -> vy p0 <> vy p1 -> vz p0 <> vz p1 -> 0 < ms ->
  exists parts, box p0 p1 = Ok parts /\ length parts = 3%nat /\ forall s, In s parts ->
  exists N pts tris info, (forall fuel, (N <= fuel)%nat -> mesh_surface fuel s (fun _ => Ok ms) sd = Ok ((pts, tris), info)) /\
    tiles s pts tris.
Proof.
  intros Hx Hy Hz Hms. apply Rmin_lt_max in Hx, Hy, Hz. unfold box.
  set (x0 := Rmin (vx p0) (vx p1)) in *. set (x1 := Rmax (vx p0) (vx p1)) in *.
  set (y0 := Rmin (vy p0) (vy p1)) in *. set (y1 := Rmax (vy p0) (vy p1)) in *.
  set (z0 := Rmin (vz p0) (vz p1)) in *. set (z1 := Rmax (vz p0) (vz p1)) in *.
  assert (NE : forall a b, vx a <> vx b \/ vy a <> vy b \/ vz a <> vz b -> a <> b) by (intros a b H ->; tauto).
  destruct (follows_quad (V3 x0 y0 z0) (V3 x1 y0 z0) (V3 x1 y0 z1) (V3 x0 y0 z1)) as (side & Hs & Hf);
    try (apply NE; cbn [vx vy vz]; lra).
  apply bind_ok in Hs. destruct Hs as (s1 & E1 & Hs). apply bind_ok in Hs. destruct Hs as (s2 & E2 & E3).
  rewrite E1. cbn [bind]. rewrite E2. cbn [bind]. rewrite E3. cbn [bind].
  destruct (spanned_tiles (V3 x0 y0 z1) (V3 x1 y0 z1) (V3 x0 y0 z0) (V3 x1 y0 z0) ms sd) as (top & Et & Ht);
    try (apply NE; cbn [vx vy vz]; lra); [left; apply NE; cbn [vx vy vz]; lra|exact Hms|].
  destruct (spanned_tiles (V3 x0 y1 z0) (V3 x1 y1 z0) (V3 x0 y1 z1) (V3 x1 y1 z1) ms sd) as (bot & Eb & Hb);
    try (apply NE; cbn [vx vy vz]; lra); [left; apply NE; cbn [vx vy vz]; lra|exact Hms|].
  rewrite Et, Eb. cbn [bind]. eexists. split; [reflexivity|]. split; [reflexivity|].
  intros s [<-|[<-|[<-|[]]]]; [exact Ht|exact Hb|]. apply extrude_tiles; [| |exact Hms].
  - apply NE. cbn [vx vy vz vzero]. lra.
  - eapply (follows_straight _ _); [| |exact Hf]; [cbn; lia|].
    intros [|[|[|[|k]]]] a b Ha Hb'; cbn in Ha, Hb'; try (destruct k; discriminate); injection Ha as <-; injection Hb' as <-; apply NE; cbn [vx vy vz]; lra.
Qed.
