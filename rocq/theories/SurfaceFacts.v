(** Facts about surfaces (C22, C23, C55). *)
From Coq Require Import Reals Lra Lia Psatz.
From Verif Require Import Base BaseFacts Vec GeomModel GeomFacts QuadModel KronrodFacts PathModel PathSpec PathFacts PathOpsFacts PolyFacts SurfaceModel.
Local Open Scope R_scope.

Definition revolve_about (a : axis) : R -> R -> path -> surface :=
  match a with AxisX => revolve_x | AxisY => revolve_y | AxisZ => revolve_z end.
(** Distance to a coordinate axis and coordinate along it. *)
Definition axis_dist (a : axis) (q : vec3) : R :=
  match a with
  | AxisX => sqrt (vy q * vy q + vz q * vz q)
  | AxisY => sqrt (vx q * vx q + vz q * vz q)
  | AxisZ => sqrt (vx q * vx q + vy q * vy q)
  end.

Lemma polar_turn x y a : let r := sqrt (x * x + y * y) in
  r * cos (atan2 y x + a) = cos a * x - sin a * y /\ r * sin (atan2 y x + a) = sin a * x + cos a * y.
Proof.
  intros r. destruct (atan2_polar x y) as [C S]. fold r in C, S.
  rewrite cos_plus, sin_plus. split.
  - transitivity (r * cos (atan2 y x) * cos a - r * sin (atan2 y x) * sin a); [ring|]. rewrite C, S. ring.
  - transitivity (r * sin (atan2 y x) * cos a + r * cos (atan2 y x) * sin a); [ring|]. rewrite C, S. ring.
Qed.

(** The sense of turning of each revolve function. *)
Definition sense (a : axis) : R := match a with AxisY => -1 | _ => 1 end.

Lemma revolve_is_rotation a r_avg angle p u v q : r_avg <> 0 -> pfun p u = Ok q ->
  sfun (revolve_about a r_avg angle p) u v =
  Ok (rodrigues (unit_of a) (sense a * (v / (2 * PI * r_avg) * angle)) vzero q).
Proof.
  intros Hr Hq. pose proof PI_RGT_0 as HP.
  assert (Hl : 2 * PI * r_avg <> 0) by nra.
  destruct a; cbn [revolve_about]; unfold revolve_x, revolve_y, revolve_z; cbn [sfun]; rewrite Hq; cbn [bind];
    rewrite Rdiv_py_ok by exact Hl; cbn [bind]; f_equal; set (al := v / (2 * PI * r_avg) * angle); cbn [sense].
  - replace (vy q ^ 2 + vz q ^ 2) with (vy q * vy q + vz q * vz q) by ring.
    destruct (polar_turn (vy q) (vz q) al) as [C S]. rewrite C, S, Rmult_1_l.
    unfold rodrigues, unit_of, ex, vzero, cross, dot. apply vec_eq; simpl; ring.
  - destruct (polar_turn (vx q) (vz q) al) as [C S]. rewrite C, S.
    replace (-1 * al) with (- al) by ring.
    unfold rodrigues, unit_of, ey, vzero, cross, dot. rewrite cos_neg, sin_neg. apply vec_eq; simpl; ring.
  - destruct (polar_turn (vx q) (vy q) al) as [C S]. rewrite C, S, Rmult_1_l.
    unfold rodrigues, unit_of, ez, vzero, cross, dot. apply vec_eq; simpl; ring.
Qed.

Lemma rodrigues_axial a angle q :
  dot (rodrigues (unit_of a) angle vzero q) (unit_of a) = dot q (unit_of a) /\
  axis_dist a (rodrigues (unit_of a) angle vzero q) = axis_dist a q.
Proof.
  pose proof (sin2_cos2' angle) as T.
  destruct a; unfold axis_dist, rodrigues, unit_of, ex, ey, ez, vzero, cross, dot; simpl;
    (split; [ring|f_equal]).
  - match goal with |- ?l = _ => replace l with ((sin angle * sin angle + cos angle * cos angle) * (vy q * vy q + vz q * vz q)) by ring end.
    rewrite T. ring.
  - match goal with |- ?l = _ => replace l with ((sin angle * sin angle + cos angle * cos angle) * (vx q * vx q + vz q * vz q)) by ring end.
    rewrite T. ring.
  - match goal with |- ?l = _ => replace l with ((sin angle * sin angle + cos angle * cos angle) * (vx q * vx q + vy q * vy q)) by ring end.
    rewrite T. ring.
Qed.

(** ** Polar coordinates with an angle in [0, 2 pi] *)
Lemma atan2_bound x y : - PI <= atan2 y x <= PI.
Proof.
  pose proof PI_RGT_0. pose proof (atan_bound (y / x)). unfold atan2.
  destruct (Rlt_dec 0 x); [lra|]. destruct (Rlt_dec x 0).
  - assert (/ x < 0) by (apply Rinv_lt_0_compat; assumption).
    destruct (Rle_dec 0 y).
    + assert (y / x <= 0) by (unfold Rdiv; nra). 
      assert (atan (y / x) <= 0).
      { destruct (Req_dec (y / x) 0) as [E|E]; [rewrite E, atan_0; lra|].
        rewrite <- atan_0. left. apply atan_increasing. lra. }
      lra.
    + assert (0 < y / x) by (unfold Rdiv; nra).
      assert (0 < atan (y / x)) by (rewrite <- atan_0; apply atan_increasing; assumption). lra.
  - destruct (Rlt_dec 0 y); [lra|]. destruct (Rlt_dec y 0); lra.
Qed.
Lemma polar_exists x y : exists phi, 0 <= phi <= 2 * PI /\
  sqrt (x * x + y * y) * cos phi = x /\ sqrt (x * x + y * y) * sin phi = y.
Proof.
  pose proof PI_RGT_0. destruct (atan2_polar x y) as [C S]. pose proof (atan2_bound x y) as B.
  destruct (Rle_dec 0 (atan2 y x)) as [K|K].
  - exists (atan2 y x). split; [lra|]. auto.
  - exists (atan2 y x + 2 * PI). split; [lra|]. rewrite cos_plus, sin_plus, cos_2PI, sin_2PI.
    rewrite !Rmult_1_r, !Rmult_0_r, Rminus_0_r, Rplus_0_r. auto.
Qed.

(** ** Every parameter of a polyline lies on a segment *)
Lemma polyline_segment cs : (2 <= length cs)%nat -> forall u, 0 <= u <= polylen cs ->
  exists k a b t, nth_error cs k = Some a /\ nth_error cs (S k) = Some b /\
    0 <= t <= dist3 a b /\ u = polylen (firstn (S k) cs) + t.
Proof.
  intros Hn. 
  assert (G : forall n, (2 <= n <= length cs)%nat -> forall u, 0 <= u <= polylen (firstn n cs) ->
    exists k a b t, nth_error cs k = Some a /\ nth_error cs (S k) = Some b /\
      0 <= t <= dist3 a b /\ u = polylen (firstn (S k) cs) + t).
  { intros n. induction n as [|n IH]; [lia|]. intros Hl u Hu.
    destruct n as [|n]; [lia|].
    destruct (nth_error_total cs n) as [a Ha]; [lia|]. destruct (nth_error_total cs (S n)) as [b Hb]; [lia|].
    rewrite (polylen_step cs n a b Ha Hb) in Hu.
    destruct (Rle_dec (polylen (firstn (S n) cs)) u) as [K|K].
    - exists n, a, b, (u - polylen (firstn (S n) cs)). repeat split; auto; lra.
    - destruct n as [|n].
      + destruct cs as [|c cs]; [discriminate|]. simpl in K. lra.
      + apply IH; [lia|]. lra. }
  intros u Hu. apply (G (length cs)); [lia|]. rewrite firstn_all. exact Hu.
Qed.

Lemma Rmin_lt_max a b : a <> b -> Rmin a b < Rmax a b.
Proof. intros H. unfold Rmin, Rmax. destruct (Rle_dec a b); lra. Qed.
