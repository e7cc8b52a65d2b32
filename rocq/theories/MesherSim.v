(** The mesher does not look at points except through [eval] and [decide]: two instances related
    by a function on points give related results.  Used to run examples with exact rationals. *)
From Coq Require Import Reals QArith Qreals Lra Psatz.
From Verif Require Import Base BaseFacts Vec GeomModel QuadModel KronrodFacts SurfaceModel MesherModel MesherFacts MesherSurf.
Local Open Scope nat_scope.

Definition rmap {A B} (f : A -> B) (r : result A) : result B := match r with Ok x => Ok (f x) | Err e => Err e end.

Section Sim.
  Context {P P' : Type} (f : P -> P').
  Variables (decide : P -> P -> P -> P -> result (bool * bool)) (decide' : P' -> P' -> P' -> P' -> result (bool * bool)).
  Hypothesis Hdec : forall a b c d, decide' (f a) (f b) (f c) (f d) = decide a b c d.
  Definition same_eval (e : nat -> nat -> nat -> result P) (e' : nat -> nat -> nat -> result P') : Prop :=
    forall d i j, i <= 2 ^ d -> j <= 2 ^ d -> e' d i j = rmap f (e d i j).
  Definition fst_map (st : pstack P) : pstack P' := mkps (map f (ps_points st)) (ps_maps st).

  Lemma index_sim e e' st d i j : same_eval e e' ->
    to_point_index e' (fst_map st) d i j = rmap (fun x => (fst_map (fst x), snd x)) (to_point_index e st d i j).
  Proof.
    intros He. unfold to_point_index. destruct (py_assert (i <=? _)); [|reflexivity]. cbn [bind].
    destruct (py_assert (j <=? _)); [|reflexivity]. cbn [bind]. cbn [fst_map ps_maps ps_points].
    destruct (np_get _ d) as [m|]; [|reflexivity]. cbn [bind].
    destruct (read_map d m i j) as [o|] eqn:Er; [|reflexivity]. cbn [bind]. destruct o as [k|]; [reflexivity|].
    unfold read_map, number_of_indices in Er. destruct ((i <? 2 ^ d + 1) && (j <? 2 ^ d + 1)) eqn:El; [|discriminate].
    apply andb_true_iff in El. destruct El as (Ei & Ej). apply Nat.ltb_lt in Ei, Ej.
    rewrite He by lia. destruct (e d i j) as [p|]; [|reflexivity]. cbn [rmap bind]. unfold fst_map. cbn [fst snd ps_points ps_maps].
    rewrite map_app, map_length. reflexivity.
  Qed.
  Lemma np_get_map {A B} (g : A -> B) l k : np_get (map g l) k = rmap g (np_get l k).
  Proof. unfold np_get. rewrite nth_error_map. destruct (nth_error l k); reflexivity. Qed.
  Lemma get_sim e e' st d i j : same_eval e e' ->
    ps_get e' (fst_map st) d i j = rmap (fun x => (fst_map (fst x), f (snd x))) (ps_get e st d i j).
  Proof.
    intros He. unfold ps_get. rewrite (index_sim e e' st d i j He). destruct (to_point_index e st d i j) as [(st', k)|]; [|reflexivity].
    cbn [rmap bind fst snd]. cbn [fst_map ps_points]. rewrite np_get_map. destruct (np_get (ps_points st') k); reflexivity.
  Qed.
  Lemma subdivide_sim e e' fuel : same_eval e e' -> forall st todo quads,
    subdivide fuel e' decide' (fst_map st) todo quads = rmap (fun x => (fst_map (fst x), snd x)) (subdivide fuel e decide st todo quads).
  Proof.
    intros He. induction fuel as [|fuel IH]; intros st todo quads; destruct todo as [|q rest]; cbn [subdivide]; try reflexivity.
    rewrite (get_sim e e' _ _ _ _ He). destruct (ps_get e st _ _ _) as [(s1, p1)|]; [|reflexivity]. cbn [rmap bind fst snd].
    rewrite (get_sim e e' _ _ _ _ He). destruct (ps_get e s1 _ _ _) as [(s2, p2)|]; [|reflexivity]. cbn [rmap bind fst snd].
    rewrite (get_sim e e' _ _ _ _ He). destruct (ps_get e s2 _ _ _) as [(s3, p3)|]; [|reflexivity]. cbn [rmap bind fst snd].
    rewrite (get_sim e e' _ _ _ _ He). destruct (ps_get e s3 _ _ _) as [(s4, p4)|]; [|reflexivity]. cbn [rmap bind fst snd].
    rewrite Hdec. destruct (decide p1 p2 p3 p4) as [(h, v)|]; [|reflexivity]. cbn [bind]. destruct (split q h v); apply IH.
  Qed.
  Lemma subdivide_all_sim e e' fuel : same_eval e e' -> forall starts st quads,
    subdivide_all fuel e' decide' (fst_map st) starts quads = rmap (fun x => (fst_map (fst x), snd x)) (subdivide_all fuel e decide st starts quads).
  Proof.
    intros He. induction starts as [|q rest IH]; intros st quads; cbn [subdivide_all]; [reflexivity|].
    rewrite (subdivide_sim e e' fuel He). destruct (subdivide fuel e decide st [q] quads) as [(s1, q1)|]; [|reflexivity]. cbn [rmap bind fst snd]. apply IH.
  Qed.
  Lemma sections_sim fuel sd : forall es es', Forall2 same_eval es es' -> forall pts,
    mesh_sections fuel decide' sd (map f pts) es' = rmap (fun x => (map f (fst x), snd x)) (mesh_sections fuel decide sd pts es).
  Proof.
    induction 1 as [|e e' es es' He _ IH]; intros pts; cbn [mesh_sections]; [reflexivity|].
    change (mkps (map f pts) []) with (fst_map (mkps pts [])). rewrite (subdivide_all_sim e e' fuel He).
    destruct (subdivide_all fuel e decide _ _ _) as [(s1, q1)|]; [|reflexivity]. cbn [rmap bind fst snd]. cbn [fst_map ps_points ps_maps].
    rewrite IH. destruct (mesh_sections fuel decide sd (ps_points s1) es) as [(p2, o2)|]; reflexivity.
  Qed.
  Lemma mesher_sim fuel sd Nx Ny es es' : Forall2 same_eval es es' ->
    mesher fuel decide' sd Nx Ny es' = rmap (fun x => ((map f (fst (fst x)), snd (fst x)), snd x)) (mesher fuel decide sd Nx Ny es).
  Proof.
    intros He. unfold mesher. change (@nil P') with (map f []). rewrite (sections_sim fuel sd es es' He).
    destruct (mesh_sections fuel decide sd [] es) as [(pts, stacks)|]; [|reflexivity]. cbn [rmap bind fst snd].
    destruct (mapM _ stacks) as [pqs|]; [|reflexivity]. cbn [bind].
    destruct (py_assert (length pqs =? Nx * Ny)); [|reflexivity]. cbn [bind].
    destruct (stitch _ Nx Ny _) as [ms|]; [|reflexivity]. cbn [bind].
    destruct (mapM _ (combine ms (map snd pqs))) as [tss|]; [|reflexivity]. cbn [bind].
    rewrite map_length. destruct (py_assert _); reflexivity.
  Qed.
End Sim.

(** ** Exact rational runs: points are parameter pairs *)
Local Open Scope Q_scope.
Definition qpair : Type := Q * Q.
Definition qvec : Type := Q * Q * Q.
Definition q_dist2 (a b : qvec) : Q :=
  let '(ax, ay, az) := a in let '(bx, by_, bz) := b in
  (ax - bx) * (ax - bx) + (ay - by_) * (ay - by_) + (az - bz) * (az - bz).
Definition Qltb (a b : Q) : bool := negb (Qle_bool b a).
Definition Qmaxb (a b : Q) : Q := if Qle_bool a b then b else a.
(** lengths squared *)
Definition q_too_long (ms a2 b2 : Q) : bool := Qltb (ms * ms) a2 || (Qltb ((25#4) * b2) a2 && Qltb ((1#64) * (ms * ms)) a2).
Definition q_decide (S : qpair -> qvec) (ms : Q) (p1 p2 p3 p4 : qpair) : result (bool * bool) :=
  let a := S p1 in let b := S p2 in let c := S p3 in let d := S p4 in
  let hor := Qmaxb (q_dist2 a b) (q_dist2 c d) in let ver := Qmaxb (q_dist2 a c) (q_dist2 b d) in
  Ok (q_too_long ms hor ver, q_too_long ms ver hor).
Definition q_eval (r : (Q * Q) * (Q * Q)) (d i j : nat) : result qpair :=
  let n := inject_Z (2 ^ Z.of_nat d) in
  Ok (Qred (fst (fst r) + (snd (fst r) - fst (fst r)) / n * inject_Z (Z.of_nat i)),
      Qred (fst (snd r) + (snd (snd r) - fst (snd r)) / n * inject_Z (Z.of_nat j))).

Definition q2r (v : qvec) : vec3 := let '(x, y, z) := v in V3 (Q2R x) (Q2R y) (Q2R z).
Definition q2r2 (r : (Q * Q) * (Q * Q)) : rect := ((Q2R (fst (fst r)), Q2R (snd (fst r))), (Q2R (fst (snd r)), Q2R (snd (snd r)))).

Local Open Scope R_scope.
Lemma Qltb_R a b : Qltb a b = Rltb (Q2R a) (Q2R b).
Proof.
  unfold Qltb. destruct (Qle_bool b a) eqn:E; cbn [negb]; symmetry.
  - apply Qle_bool_iff, Qle_Rle in E. apply Rltb_false. exact E.
  - apply Rltb_true. apply Qlt_Rlt. apply Qnot_le_lt. intros H. apply Qle_bool_iff in H. congruence.
Qed.
Lemma Qmaxb_R a b : Q2R (Qmaxb a b) = Rmax (Q2R a) (Q2R b).
Proof.
  unfold Qmaxb. destruct (Qle_bool a b) eqn:E.
  - apply Qle_bool_iff, Qle_Rle in E. rewrite Rmax_right; [reflexivity|exact E].
  - assert (b < a)%Q by (apply Qnot_le_lt; intros H; apply Qle_bool_iff in H; congruence). apply Qlt_Rlt in H. rewrite Rmax_left; [reflexivity|lra].
Qed.
Lemma q_dist2_R a b : Q2R (q_dist2 a b) = dist3 (q2r a) (q2r b) * dist3 (q2r a) (q2r b).
Proof.
  rewrite dist_sq. destruct a as ((ax, ay), az), b as ((bx, by_), bz). unfold q_dist2, q2r, dot, vsub. cbn [vx vy vz].
  rewrite !Q2R_plus, !Q2R_mult, !Q2R_minus. reflexivity.
Qed.
Lemma Rltb_sq a b : 0 <= a -> 0 <= b -> Rltb a b = Rltb (a * a) (b * b).
Proof.
  intros Ha Hb. destruct (Rltb (a * a) (b * b)) eqn:E.
  - apply Rltb_true in E. apply Rltb_true. nra.
  - apply Rltb_false in E. apply Rltb_false. nra.
Qed.
Lemma Rmax_sq a b : 0 <= a -> 0 <= b -> Rmax (a * a) (b * b) = Rmax a b * Rmax a b.
Proof.
  intros Ha Hb. unfold Rmax. destruct (Rle_dec a b), (Rle_dec (a * a) (b * b)); try reflexivity; nra.
Qed.
Lemma q_too_long_R ms a2 b2 a b : 0 <= Q2R ms -> 0 <= a -> 0 <= b -> Q2R a2 = a * a -> Q2R b2 = b * b ->
  q_too_long ms a2 b2 = too_long (Q2R ms) a b.
Proof.
  intros Hm Ha Hb E1 E2. unfold q_too_long, too_long. rewrite !Qltb_R, !Q2R_mult, E1, E2.
  rewrite (Rltb_sq (Q2R ms) a), (Rltb_sq (5/2 * b) a), (Rltb_sq (1/8 * Q2R ms) a) by lra.
  assert (C1 : Q2R (25 # 4) = 25 / 4) by (unfold Q2R; simpl; field). assert (C2 : Q2R (1 # 64) = 1 / 64) by (unfold Q2R; simpl; field).
  rewrite C1, C2. do 2 f_equal; f_equal; field.
Qed.
Lemma q_decide_R (S : qpair -> qvec) ms (f : qpair -> vec3) p1 p2 p3 p4 :
  0 <= Q2R ms -> (forall p, f p = q2r (S p)) ->
  decide_split (fun _ => Ok (Q2R ms)) (f p1) (f p2) (f p3) (f p4) = q_decide S ms p1 p2 p3 p4.
Proof.
  intros Hm Hf. unfold decide_split, q_decide. cbn [bind]. rewrite !Hf.
  set (a := S p1). set (b := S p2). set (c := S p3). set (d := S p4).
  assert (N : forall x y, 0 <= dist3 x y) by (intros; apply norm_nonneg).
  assert (H1 : Q2R (Qmaxb (q_dist2 a b) (q_dist2 c d)) = horizontal (q2r a) (q2r b) (q2r c) (q2r d) * horizontal (q2r a) (q2r b) (q2r c) (q2r d)).
  { unfold horizontal. rewrite Qmaxb_R, !q_dist2_R. apply Rmax_sq; apply N. }
  assert (H2 : Q2R (Qmaxb (q_dist2 a c) (q_dist2 b d)) = vertical (q2r a) (q2r b) (q2r c) (q2r d) * vertical (q2r a) (q2r b) (q2r c) (q2r d)).
  { unfold vertical. rewrite Qmaxb_R, !q_dist2_R. apply Rmax_sq; apply N. }
  assert (G1 : 0 <= horizontal (q2r a) (q2r b) (q2r c) (q2r d)) by (unfold horizontal; eapply Rle_trans; [apply N|apply Rmax_l]).
  assert (G2 : 0 <= vertical (q2r a) (q2r b) (q2r c) (q2r d)) by (unfold vertical; eapply Rle_trans; [apply N|apply Rmax_l]).
  rewrite (q_too_long_R ms _ _ _ _ Hm G1 G2 H1 H2), (q_too_long_R ms _ _ _ _ Hm G2 G1 H2 H1). reflexivity.
Qed.
(** the surface is [f] at the rational parameters of the rectangle *)
Definition runs_on (s : surface) (f : qpair -> vec3) (r : (Q * Q) * (Q * Q)) : Prop :=
  Q2R (fst (fst r)) <= Q2R (snd (fst r)) /\ Q2R (fst (snd r)) <= Q2R (snd (snd r)) /\
  forall u v, Q2R (fst (fst r)) <= Q2R u <= Q2R (snd (fst r)) -> Q2R (fst (snd r)) <= Q2R v <= Q2R (snd (snd r)) ->
    sfun s (Q2R u) (Q2R v) = Ok (f (u, v)).
Lemma grid_between a b n i : 0 < n -> 0 <= i <= n -> a <= b -> a <= a + (b - a) / n * i <= b.
Proof.
  intros Hn Hi Hab. assert (E : (b - a) / n * i = (b - a) * (i / n)) by (field; lra). rewrite E.
  assert (H0 : 0 <= i / n) by (apply Rmult_le_pos; [lra|left; apply Rinv_0_lt_compat; exact Hn]).
  assert (H1 : i / n <= 1) by (apply (Rmult_le_reg_r n); [exact Hn|]; unfold Rdiv; rewrite Rmult_assoc, Rinv_l by lra; lra). nra.
Qed.
Lemma q_eval_R s (f : qpair -> vec3) r : runs_on s f r ->
  same_eval f (q_eval r) (index_to_point (rsection s (q2r2 r))).
Proof.
  intros (R1 & R2 & Hf) d i j Hi Hj. unfold q_eval. cbn [rmap].
  assert (E : Q2R (inject_Z (2 ^ Z.of_nat d)) = MesherTile.pw d).
  { unfold Q2R, inject_Z. cbn [Qnum Qden]. rewrite <- pow_IZR. unfold MesherTile.pw. rewrite Rinv_1. ring. }
  assert (N : ~ (inject_Z (2 ^ Z.of_nat d) == 0)%Q).
  { intros H. apply Qeq_eqR in H. rewrite E in H. pose proof (MesherTile.pw_pos d). unfold Q2R in H. cbn in H. lra. }
  assert (I : forall n, Q2R (inject_Z (Z.of_nat n)) = INR n).
  { intros n. unfold Q2R, inject_Z. cbn [Qnum Qden]. rewrite INR_IZR_INZ, Rinv_1. ring. }
  assert (P : 0 < MesherTile.pw d) by apply MesherTile.pw_pos.
  assert (B : forall k, (k <= 2 ^ d)%nat -> 0 <= INR k <= MesherTile.pw d).
  { intros k Hk. split; [apply pos_INR|]. apply le_INR in Hk. rewrite pow_INR in Hk. exact Hk. }
  rewrite <- Hf; rewrite !(Qeq_eqR _ _ (Qred_correct _)), !Q2R_plus, !Q2R_mult, !Q2R_div, !Q2R_minus, !I, !E by exact N.
  - unfold index_to_point, index_to_u, index_to_v, rsection, section. cbn [sfun slen1 slen2]. rewrite !noi. reflexivity.
  - apply grid_between; [exact P|apply B, Hi|exact R1].
  - apply grid_between; [exact P|apply B, Hj|exact R2].
Qed.

(** a whole run *)
Definition q_mesh fuel (S : qpair -> qvec) (ms : Q) (sd Nx Ny : nat) (rs : list ((Q * Q) * (Q * Q))) :=
  mesher fuel (q_decide S ms) sd Nx Ny (map q_eval rs).
Lemma q_mesh_R fuel s (S : qpair -> qvec) ms sd rs :
  0 <= Q2R ms -> Forall (runs_on s (fun p => q2r (S p))) rs -> rects s = map q2r2 rs ->
  mesh_surface fuel s (fun _ => Ok (Q2R ms)) sd =
  rmap (fun x => ((map (fun p => q2r (S p)) (fst (fst x)), snd (fst x)), snd x))
       (q_mesh fuel S ms sd (length (sbps1 s) + 1) (length (sbps2 s) + 1) rs).
Proof.
  intros Hm HS Hr. unfold mesh_surface, q_mesh. rewrite sections_rects, map_map, Hr, map_map.
  apply mesher_sim.
  - intros a b c d. rewrite (q_decide_R S ms (fun p => q2r (S p))); [reflexivity|exact Hm|reflexivity].
  - clear Hr. induction HS as [|r rs Hr HS IH]; cbn [map]; constructor; [|exact IH]. apply q_eval_R. exact Hr.
Qed.
