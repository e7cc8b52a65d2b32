(** Extruded surfaces of curves that are drawn with lines, circles and arcs. *)
From Coq Require Import Reals Lra Psatz Sorted.
From Verif Require Import Base BaseFacts Vec GeomModel GeomFacts QuadModel KronrodFacts PathModel PathSpec PathFacts PathOpsFacts PolyFacts
  SurfaceModel SurfaceFacts MesherModel MesherFacts MesherRun MesherSpec MesherTile MesherTri MesherSurf MesherEnd MesherWhole
  MesherTotal MesherGentle MesherShapes.
Local Open Scope R_scope.

(** between two breakpoints the path is a curve on which halving a piece of parameter at most halves the chord *)
Definition smooth_piece (p : path) (ab : R * R) : Prop :=
  exists q K, 0 <= K /\ bends q /\ slow q K /\ forall u, fst ab <= u <= snd ab -> pfun p u = Ok (q u).
Definition smooth (p : path) : Prop :=
  StronglySorted Rlt (cuts (pbps p) (plen p)) /\ forall ab, In ab (intervals (cuts (pbps p) (plen p))) -> smooth_piece p ab.

Lemma straight_smooth p : straight p -> smooth p.
Proof.
  intros (H1 & H2). split; [exact H1|]. intros ab Hin. destruct (H2 ab Hin) as (a & d & Hf).
  exists (along a d), (norm d). split; [apply norm_nonneg|]. split; [apply along_bends|]. split; [apply along_slow|exact Hf].
Qed.
Lemma smooth_pos p : smooth p -> 0 < plen p.
Proof.
  intros (H & _). unfold cuts in H. inversion H as [|? ? _ H2]; subst. rewrite Forall_forall in H2. apply H2, in_or_app. right; left; reflexivity.
Qed.
(** a path without breakpoints that is one curve *)
Lemma one_piece p q K : pbps p = [] -> 0 < plen p -> 0 <= K -> bends q -> slow q K -> (forall u, 0 <= u <= plen p -> pfun p u = Ok (q u)) -> smooth p.
Proof.
  intros E HL HK HB HS Hf. unfold smooth. rewrite E. split; [apply no_cuts, HL|]. intros ab [<-|[]]. exists q, K. auto.
Qed.
Lemma circle_at_around c x y r w : 0 < r -> r * w = 1 \/ r * w = -1 -> exists y', (y' = y \/ y' = vscale (-1) y) /\
  forall t, circle_at c x y r w t = around c x y' r t.
Proof.
  intros Hr [Hw|Hw].
  - exists y. split; [left; reflexivity|]. intros u. unfold circle_at, around. replace (w * u) with (u / r) by (replace w with (/ r) by (apply (Rmult_eq_reg_l r); [field_simplify; lra|lra]); field; lra).
    apply vec_eq; simpl; ring.
  - exists (vscale (-1) y). split; [right; reflexivity|]. intros u. unfold circle_at, around.
    replace (w * u) with (- (u / r)) by (replace w with (- / r) by (apply (Rmult_eq_reg_l r); [field_simplify; lra|lra]); field; lra).
    rewrite cos_neg, sin_neg. apply vec_eq; simpl; ring.
Qed.
Lemma circle_smooth x0 z0 r angle : 0 < r -> 0 < angle ->
  smooth (circle_xz x0 z0 r angle) /\ smooth (circle_yz x0 z0 r angle) /\ smooth (circle_xy x0 z0 r angle).
Proof.
  intros Hr Ha. assert (HL : 0 < angle * r) by nra.
  assert (G : forall e f c p, dot e e = 1 -> dot f f = 1 -> dot e f = 0 -> pbps p = [] -> plen p = angle * r ->
     (forall u, pfun p u = Ok (around c e f r u)) -> smooth p).
  { intros e f c p He Hf Hef E L Hp. apply (one_piece p (around c e f r) 1); try rewrite L; try lra; try exact E.
    - apply around_bends; assumption.
    - apply around_slow; assumption.
    - intros u _. apply Hp. }
  split; [|split]; [apply (G ex ez (V3 x0 0 z0))|apply (G ey ez (V3 0 x0 z0))|apply (G ex ey (V3 x0 z0 0))];
    try reflexivity; try (unfold dot, ex, ey, ez; simpl; ring); intros u;
    cbn [circle_xz circle_yz circle_xy path_move path_map pfun]; rewrite Rdiv_py_ok by lra; cbn [bind]; f_equal; unfold around, move, ex, ey, ez; apply vec_eq; simpl; ring.
Qed.
Lemma arc_smooth center start end_ reverse p :
  cross (vsub start center) (vsub end_ center) <> vzero -> arc center start end_ reverse = Ok p -> smooth p /\ pbps p = [] /\ pfun p 0 = Ok start.
Proof.
  intros Hc E. destruct (arc_ok center start end_ reverse Hc) as (x & y & r & th & p' & F & E' & L & B & Hf).
  rewrite E in E'. injection E' as <-. destruct (arc_points center start end_ x y r th reverse F) as [P0 _].
  destruct F as [(Fx & Fy & Fxy) Fr Fp Fs Ft Fe]. split; [|split; [exact B|rewrite Hf, P0; reflexivity]].
  destruct (circle_at_around center x y r (if reverse then - / r else / r) Fp) as (y' & Hy' & Ha).
  { destruct reverse; [right|left]; field; lra. }
  assert (D1 : dot y' y' = 1) by (destruct Hy' as [->| ->]; [exact Fy|]; rewrite <- Fy; unfold dot; simpl; ring).
  assert (D2 : dot x y' = 0) by (destruct Hy' as [->| ->]; [exact Fxy|]; transitivity (- dot x y); [unfold dot; simpl; ring|lra]).
  apply (one_piece p (around center x y' r) 1 B).
  - rewrite L. destruct reverse; nra.
  - lra.
  - apply around_bends; assumption.
  - apply around_slow; assumption.
  - intros u _. rewrite Hf, Ha. reflexivity.
Qed.

(** ** Continuing a path *)
Lemma intervals_snoc l a b : intervals ((l ++ [a]) ++ [b]) = intervals (l ++ [a]) ++ [(a, b)].
Proof.
  induction l as [|x l IH]; [reflexivity|]. destruct l as [|y l]; [reflexivity|].
  cbn [app] in *. rewrite !intervals_cons. cbn [app]. f_equal. exact IH.
Qed.
Lemma sorted_snoc l a b : StronglySorted Rlt (l ++ [a]) -> a < b -> StronglySorted Rlt ((l ++ [a]) ++ [b]).
Proof.
  intros H Hab. assert (HB : Forall (fun x => x < b) (l ++ [a])).
  { apply Forall_forall. intros x Hx. apply in_app_or in Hx. destruct Hx as [Hx|[<-|[]]]; [|exact Hab].
    apply Rlt_trans with a; [|exact Hab]. clear Hab. induction l as [|y l IH]; [destruct Hx|]. cbn [app] in H. inversion H as [|? ? H1 H2]; subst.
    destruct Hx as [<-|Hx]; [|apply IH; assumption]. rewrite Forall_forall in H2. apply H2, in_or_app. right; left; reflexivity. }
  clear Hab. revert H HB. generalize (l ++ [a]). clear. intros l. induction l as [|x l IH]; intros H HB; cbn [app]; [repeat constructor|].
  inversion H as [|? ? H1 H2]; subst. inversion HB as [|? ? B1 B2]; subst. constructor; [apply IH; assumption|]. apply Forall_app. split; [exact H2|repeat constructor; exact B1].
Qed.
Lemma shifted_bends q L : bends q -> bends (fun u => q (u - L)).
Proof. intros H a b. specialize (H (a - L) (b - L)). replace ((a - L + (b - L)) / 2) with ((a + b) / 2 - L) in H by field. exact H. Qed.
Lemma shifted_slow q K L : slow q K -> slow (fun u => q (u - L)) K.
Proof. intros H a b. specialize (H (a - L) (b - L)). replace (a - L - (b - L)) with (a - b) in H by ring. exact H. Qed.
Lemma smooth_rshift p q r : smooth p -> smooth q -> pbps q = [] -> endpoint p = starting_point q -> rshift p q = Ok r -> smooth r.
Proof.
  intros Sp Sq Eq Hend Hr. pose proof (smooth_pos p Sp) as Lp. pose proof (smooth_pos q Sq) as Lq.
  unfold rshift in Hr. apply bind_ok in Hr. destruct Hr as (e & He & Hr). rewrite <- Hend, He in Hr. cbn [bind] in Hr. rewrite points_close_refl in Hr.
  cbn [py_assert bind] in Hr. injection Hr as <-. destruct Sp as (S1 & S2), Sq as (_ & S3). rewrite Eq in S3.
  assert (EC : cuts (pbps p ++ plen p :: pbps q)%list (plen p + plen q) = (cuts (pbps p) (plen p) ++ [plen p + plen q])%list).
  { unfold cuts. rewrite Eq. reflexivity. }
  unfold smooth. cbn [plen pbps]. rewrite EC. unfold cuts in *. change (0 :: pbps p ++ [plen p])%list with ((0 :: pbps p) ++ [plen p])%list in *.
  split; [apply sorted_snoc; [exact S1|lra]|]. intros ab Hin. rewrite intervals_snoc in Hin. apply in_app_or in Hin.
  assert (T : forall u, 0 <= u <= plen p + plen q -> py_assert (Rleb 0 u && Rleb u (plen p + plen q)) = Ok tt).
  { intros u (A & B). unfold Rleb. destruct (Rle_dec 0 u); [|lra]. destruct (Rle_dec u (plen p + plen q)); [|lra]. reflexivity. }
  destruct Hin as [Hin|[<-|[]]].
  - destruct (S2 ab Hin) as (c & K & A & B & C & D). exists c, K. split; [exact A|]. split; [exact B|]. split; [exact C|]. intros u Hu.
    assert (0 <= fst ab /\ snd ab <= plen p).
    { destruct (intervals_sorted _ S1) as (_ & _ & R). rewrite Forall_forall in R. destruct (R ab Hin) as (R1 & R2).
      apply (cuts_range (pbps p) (plen p)) in R1, R2; try exact S1. split; lra. }
    cbn [pfun]. rewrite T by lra. cbn [bind]. unfold Rleb. destruct (Rle_dec u (plen p)); [|lra]. apply D, Hu.
  - destruct (S3 (0, plen q) (or_introl eq_refl)) as (c & K & A & B & C & D). cbn [fst snd] in *.
    exists (fun u => c (u - plen p)), K. split; [exact A|]. split; [apply shifted_bends, B|]. split; [apply shifted_slow, C|]. intros u Hu. cbn [fst snd] in Hu.
    cbn [pfun]. rewrite T by lra. cbn [bind]. unfold Rleb. destruct (Rle_dec u (plen p)) as [Hle|Hle].
    + replace u with (plen p) by lra. unfold endpoint, starting_point in *. rewrite Hend. replace (plen p - plen p) with 0 by ring. apply D. lra.
    + apply D. lra.
Qed.
Lemma rshift_end p q e r : 0 < plen p -> 0 < plen q -> endpoint p = Ok e -> starting_point q = Ok e -> rshift p q = Ok r -> endpoint r = endpoint q.
Proof.
  intros Lp Lq He Es Er. unfold rshift in Er. rewrite He, Es in Er. cbn [bind] in Er. rewrite points_close_refl in Er. cbn [py_assert bind] in Er. injection Er as <-.
  unfold endpoint. cbn [pfun plen]. unfold Rleb. destruct (Rle_dec 0 (plen p + plen q)); [|lra].
  destruct (Rle_dec (plen p + plen q) (plen p + plen q)); [|lra]. cbn [andb py_assert bind].
  destruct (Rle_dec (plen p + plen q) (plen p)); [lra|]. replace (plen p + plen q - plen p) with (plen q) by ring. reflexivity.
Qed.
Lemma smooth_line_to p e b : smooth p -> endpoint p = Ok e -> e <> b -> exists r, line_to b p = Ok r /\ smooth r /\ endpoint r = Ok b.
Proof.
  intros Sp He Hb. unfold line_to. rewrite He. cbn [bind]. pose proof (line_fun e b 0 Hb) as L0. rewrite Rmult_0_l in L0.
  assert (Es : starting_point (line e b) = Ok e) by (unfold starting_point; rewrite L0; f_equal; apply vec_eq; simpl; ring).
  pose proof (line_fun e b 1 Hb) as L1. rewrite Rmult_1_l in L1.
  assert (Hs : smooth (line e b)) by apply straight_smooth, line_straight, Hb.
  pose proof (smooth_pos p Sp) as Lp. pose proof (smooth_pos _ Hs) as Lq.
  destruct (rshift p (line e b)) as [r|x] eqn:Er.
  - exists r. split; [reflexivity|]. split; [apply (smooth_rshift p (line e b)); try assumption; [reflexivity|congruence]|].
    rewrite (rshift_end p (line e b) e r Lp Lq He Es Er). unfold endpoint. rewrite L1. f_equal. apply vec_eq; simpl; ring.
  - unfold rshift in Er. rewrite He, Es in Er. cbn [bind] in Er. rewrite points_close_refl in Er. discriminate.
Qed.
Lemma smooth_arc_to p e c b reverse : smooth p -> endpoint p = Ok e -> cross (vsub e c) (vsub b c) <> vzero ->
  exists r, arc_to c b reverse p = Ok r /\ smooth r /\ (dist3 b c = dist3 e c -> endpoint r = Ok b).
Proof.
  intros Sp He Hc. unfold arc_to. rewrite He. cbn [bind].
  destruct (arc_ok c e b reverse Hc) as (x & y & rad & th & a & F & E & L & B & Hf). rewrite E. cbn [bind].
  destruct (arc_points c e b x y rad th reverse F) as [_ P1].
  destruct (arc_smooth c e b reverse a Hc E) as (Sa & Ba & E0).
  pose proof (smooth_pos p Sp) as Lp. pose proof (smooth_pos _ Sa) as Lq.
  destruct (rshift p a) as [r|z] eqn:Er.
  - exists r. split; [reflexivity|]. split; [apply (smooth_rshift p a); try assumption; unfold starting_point; congruence|].
    intros Hd. rewrite (rshift_end p a e r Lp Lq He E0 Er). unfold endpoint.
    rewrite Hf, L, P1 by exact Hd. reflexivity.
  - unfold rshift, starting_point in Er. rewrite He, E0 in Er. cbn [bind] in Er. rewrite points_close_refl in Er. discriminate.
Qed.
Lemma smooth_move w p : smooth p -> smooth (path_move w p).
Proof.
  intros (H1 & H2). split; [exact H1|]. intros ab Hin. destruct (H2 ab Hin) as (q & K & A & B & C & D).
  assert (E : forall a b, dist3 (move w a) (move w b) = dist3 a b) by (intros; unfold dist3, move; f_equal; vec_ring).
  exists (fun u => move w (q u)), K. split; [exact A|]. split; [intros x y; rewrite !E; apply B|]. split; [intros x y; rewrite E; apply C|].
  intros u Hu. cbn [path_move path_map pfun]. rewrite (D u Hu). reflexivity.
Qed.

(** ** Extrusions along vectors and paths *)
Lemma sweep_orderly s p1 p2 w sd : smooth p1 -> smooth p2 ->
  sbps1 s = pbps p1 -> slen1 s = plen p1 -> sbps2 s = pbps p2 -> slen2 s = plen p2 ->
  (forall u v a b, 0 <= u <= plen p1 -> 0 <= v <= plen p2 -> pfun p1 u = Ok a -> pfun p2 v = Ok b -> sfun s u v = Ok (vadd a (vadd b w))) ->
  forall r, In r (rects s) -> orderly s sd r.
Proof.
  intros (S1 & T1) (S2 & T2) E1 E2 E3 E4 Hs (ab, cd) Hin. unfold rects in Hin. rewrite E1, E2, E3, E4 in Hin. apply in_prod_iff in Hin. destruct Hin as (H1 & H2).
  destruct (T1 ab H1) as (q1 & K1 & A1 & B1 & C1 & D1), (T2 cd H2) as (q2 & K2 & A2 & B2 & C2 & D2).
  assert (Hab : 0 <= fst ab /\ snd ab <= plen p1).
  { destruct (intervals_sorted _ S1) as (_ & _ & R). rewrite Forall_forall in R. destruct (R ab H1) as (R1 & R2).
    apply (cuts_range (pbps p1) (plen p1)) in R1, R2; try exact S1. split; lra. }
  assert (Hcd : 0 <= fst cd /\ snd cd <= plen p2).
  { destruct (intervals_sorted _ S2) as (_ & _ & R). rewrite Forall_forall in R. destruct (R cd H2) as (R1 & R2).
    apply (cuts_range (pbps p2) (plen p2)) in R1, R2; try exact S2. split; lra. }
  set (q2' := fun v => vadd (q2 v) w).
  assert (B2' : bends q2').
  { intros x y. unfold q2', dist3. replace (vsub (vadd (q2 x) w) (vadd (q2 y) w)) with (vsub (q2 x) (q2 y)) by vec_ring.
    replace (vsub (vadd (q2 x) w) (vadd (q2 ((x + y) / 2)) w)) with (vsub (q2 x) (q2 ((x + y) / 2))) by vec_ring.
    replace (vsub (vadd (q2 ((x + y) / 2)) w) (vadd (q2 y) w)) with (vsub (q2 ((x + y) / 2)) (q2 y)) by vec_ring. apply B2. }
  assert (C2' : slow q2' K2).
  { intros x y. unfold q2', dist3. replace (vsub (vadd (q2 x) w) (vadd (q2 y) w)) with (vsub (q2 x) (q2 y)) by vec_ring. apply C2. }
  destruct (sweep_lipschitz q1 q2' K1 K2 (fst ab) (snd ab) (fst cd) (snd cd)) as (K & HK & HL); try assumption.
  exists (sweep q1 q2'), (fun _ _ _ _ => True), K.
  split; [|split; [apply sweep_gentle; assumption|]; split; [auto|]; split; [exact HK|exact HL]].
  intros u v Hu Hv. cbn [fst snd] in *. unfold sweep, q2'. apply Hs; try lra; [apply D1, Hu|apply D2, Hv].
Qed.
Lemma smooth_extrude_tiles w p ms sd : w <> vzero -> smooth p -> 0 < ms ->
  exists N pts tris info, (forall fuel, (N <= fuel)%nat -> mesh_surface fuel (extrude w p) (fun _ => Ok ms) sd = Ok ((pts, tris), info)) /\
    tiles (extrude w p) pts tris.
Proof.
  intros Hw Hp Hms. assert (Hn : norm w <> 0) by (intros E; apply norm_zero in E; exact (Hw E)).
  assert (Hl : 0 < norm w) by (pose proof (norm_nonneg w); lra).
  assert (S2 : smooth (line vzero w)) by (apply straight_smooth, line_straight; intros E; apply Hw; symmetry; exact E).
  assert (Lw : plen (line vzero w) = norm w) by (cbn [line plen]; apply norm_eq; unfold dot, vsub, vzero; simpl; ring).
  apply orderly_tiles; [|right; reflexivity|exact Hms|].
  - split; [apply Hp|]. cbn [extrude sbps2 slen2]. apply no_cuts, Hl.
  - apply (sweep_orderly (extrude w p) p (line vzero w) vzero); try assumption; try reflexivity; [symmetry; exact Lw|].
    intros u v a b Hu Hv Ha Hb. cbn [extrude sfun]. rewrite Ha. cbn [bind]. rewrite Rdiv_py_ok by exact Hn. cbn [bind].
    rewrite Lw in Hv. assert (Hvw : v = v / norm w * plen (line vzero w)) by (rewrite Lw; field; exact Hn). rewrite Hvw in Hb.
    rewrite line_fun in Hb by (intros E; apply Hw; symmetry; exact E). injection Hb as <-. f_equal. unfold vzero. apply vec_eq; simpl; ring.
Qed.
Lemma extrude_by_path_tiles p p2 p0 ms sd : smooth p -> smooth p2 -> starting_point p2 = Ok p0 -> pbps p = [] \/ pbps p2 = [] -> 0 < ms ->
  exists s, extrude_by_path p2 p = Ok s /\
  exists N pts tris info, (forall fuel, (N <= fuel)%nat -> mesh_surface fuel s (fun _ => Ok ms) sd = Ok ((pts, tris), info)) /\
    tiles s pts tris.
Proof.
  intros Hp Hp2 H0 Hone Hms. unfold extrude_by_path. rewrite H0. cbn [bind]. eexists. split; [reflexivity|].
  apply orderly_tiles; [|exact Hone|exact Hms|].
  - split; [apply Hp|apply Hp2].
  - apply (sweep_orderly _ p p2 (vscale (-1) p0)); try assumption; try reflexivity.
    intros u v a b Hu Hv Ha Hb. cbn [sfun]. rewrite Ha, Hb. cbn [bind]. f_equal. vec_ring.
Qed.
