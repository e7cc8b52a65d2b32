From Coq Require Import Reals Lra Lia Psatz.
From Verif Require Import Base BaseFacts Vec GeomModel OutwardFacts FieldModel TracingModel FocusModel.
Local Open Scope R_scope.

(** where the straight line through a sample is at height [z] *)
Definition ray_at (s : state) (z : R) : vec3 := vadd (s_pos s) (vscale ((z - vz (s_pos s)) / vz (s_vel s)) (s_vel s)).
Definition through (s : state) (p : vec3) : Prop := exists t, p = vadd (s_pos s) (vscale t (s_vel s)).
Definition miss (s : state) (p : vec3) : R := dist3 (ray_at s (vz p)) p ^ 2.
Lemma ray_height s z : vz (s_vel s) <> 0 -> vz (ray_at s z) = z.
Proof. intros H. unfold ray_at, vadd, vscale. cbn. field. exact H. Qed.
Lemma through_ray s p : vz (s_vel s) <> 0 -> through s p -> ray_at s (vz p) = p.
Proof. intros H (t & ->). unfold ray_at, vadd, vscale. cbn [vx vy vz]. apply vec_eq; cbn; field; exact H. Qed.
Lemma miss_residuals s p : vz (s_vel s) <> 0 -> miss s p =
  residual (vz p) (vx p) (vy p) (- angle_x s, 1, 0, vx (s_pos s) - vz (s_pos s) * angle_x s) ^ 2 +
  residual (vz p) (vx p) (vy p) (- angle_y s, 0, 1, vy (s_pos s) - vz (s_pos s) * angle_y s) ^ 2.
Proof.
  intros H. unfold miss. replace (dist3 (ray_at s (vz p)) p ^ 2) with (dist3 (ray_at s (vz p)) p * dist3 (ray_at s (vz p)) p) by ring. rewrite dist_sq.
  unfold dot, vsub. cbn [vx vy vz]. rewrite ray_height by exact H. unfold ray_at, vadd, vscale, residual, angle_x, angle_y. cbn [vx vy vz]. field. exact H.
Qed.
Lemma residuals_miss rays p : Forall (fun s => vz (s_vel s) <> 0) rays -> residuals (focus_rows rays) (vz p) (vx p) (vy p) = Rsum (map (fun s => miss s p) rays).
Proof.
  intros H. unfold residuals, focus_rows. rewrite map_app, Rsum_app, !map_map. rewrite <- Rsum_plus. apply Rsum_ext. intros s Hs. rewrite Forall_forall in H. rewrite (miss_residuals s p (H s Hs)). reflexivity.
Qed.
Lemma miss_nonneg s p : 0 <= miss s p.
Proof. unfold miss. apply pow2_ge_0. Qed.
Lemma Rsum_nonneg {A} (f : A -> R) l : (forall x, 0 <= f x) -> 0 <= Rsum (map f l).
Proof. intros P. induction l as [|b l IH]; cbn; [lra|]. pose proof (P b). lra. Qed.
Lemma Rsum_zero_all {A} (f : A -> R) l : (forall x, 0 <= f x) -> Rsum (map f l) <= 0 -> forall x, In x l -> f x = 0.
Proof.
  intros P. induction l as [|a l IH]; intros H x Hx; [contradiction|]. cbn in H.
  assert (S1 : 0 <= Rsum (map f l)). { clear -P. induction l as [|b l IH]; cbn; [lra|]. pose proof (P b). lra. }
  pose proof (P a). destruct Hx as [<-|Hx]; [lra|]. apply IH; [lra|exact Hx].
Qed.
Lemma miss_zero s p : vz (s_vel s) <> 0 -> (miss s p = 0 <-> through s p).
Proof.
  intros H. unfold miss. split.
  - intros E. assert (D : dist3 (ray_at s (vz p)) p = 0) by nra. apply norm_zero in D. exists ((vz p - vz (s_pos s)) / vz (s_vel s)). fold (ray_at s (vz p)).
    destruct (ray_at s (vz p)) as [a b c], p as [x y z]. unfold vsub, vzero in D. cbn in D. injection D as D1 D2 D3. f_equal; lra.
  - intros T. rewrite (through_ray s p H T). assert (E : dist3 p p = 0) by (apply norm_zero; vec_ring). rewrite E. ring.
Qed.
Lemma two_lines_meet_once a b p q : cross (s_vel a) (s_vel b) <> vzero -> through a p -> through a q -> through b p -> through b q -> p = q.
Proof.
  intros N (t & Ht) (t' & Ht') (u & Hu) (u' & Hu').
  destruct (Req_dec t t') as [->|D]; [congruence|]. exfalso. apply N.
  (* (t - t') va = (u - u') vb *)
  destruct a as [[ax ay az] [avx avy avz]], b as [[bx by_ bz] [bvx bvy bvz]], p as [px py pz], q as [qx qy qz].
  unfold vadd, vscale in *. cbn in *. injection Ht as T1 T2 T3. injection Ht' as T1' T2' T3'. injection Hu as U1 U2 U3. injection Hu' as U1' U2' U3'.
  assert (E1 : avx * (t - t') = bvx * (u - u')) by (ring_simplify; lra). assert (E2 : avy * (t - t') = bvy * (u - u')) by (ring_simplify; lra). assert (E3 : avz * (t - t') = bvz * (u - u')) by (ring_simplify; lra).
  assert (D' : t - t' <> 0) by lra.
  apply vec_eq; cbn; apply (Rmult_eq_reg_r (t - t')); try exact D'.
  - replace ((avy * bvz - avz * bvy) * (t - t')) with ((avy * (t - t')) * bvz - (avz * (t - t')) * bvy) by ring. rewrite E2, E3. ring.
  - replace ((avz * bvx - avx * bvz) * (t - t')) with ((avz * (t - t')) * bvx - (avx * (t - t')) * bvz) by ring. rewrite E3, E1. ring.
  - replace ((avx * bvy - avy * bvx) * (t - t')) with ((avx * (t - t')) * bvy - (avy * (t - t')) * bvx) by ring. rewrite E1, E2. ring.
Qed.
Lemma focus_exact rays p q a b : Forall (fun s => vz (s_vel s) <> 0) rays -> (forall s, In s rays -> through s p) -> In a rays -> In b rays -> cross (s_vel a) (s_vel b) <> vzero ->
  lstsq (focus_rows rays) (vz q) (vx q) (vy q) -> q = p.
Proof.
  intros V T Ia Ib N M. destruct (M (vz p) (vx p) (vy p)) as [L _]. rewrite !residuals_miss in L by exact V.
  assert (Z : Rsum (map (fun s => miss s p) rays) = 0).
  { rewrite (Rsum_ext _ (fun _ => 0 * 0)); [rewrite Rsum_scal; ring|]. intros s Hs. rewrite Rmult_0_l. rewrite Forall_forall in V. apply (miss_zero s p (V s Hs)). apply T; exact Hs. }
  rewrite Z in L. pose proof (Rsum_zero_all _ _ (fun s => miss_nonneg s q) L) as Q. rewrite Forall_forall in V.
  apply (two_lines_meet_once a b); [exact N|apply (miss_zero a q (V a Ia)); apply Q; exact Ia|apply T; exact Ia|apply (miss_zero b q (V b Ib)); apply Q; exact Ib|apply T; exact Ib].
Qed.
Lemma focus_attained rays p a b : Forall (fun s => vz (s_vel s) <> 0) rays -> (forall s, In s rays -> through s p) -> In a rays -> In b rays -> cross (s_vel a) (s_vel b) <> vzero ->
  lstsq (focus_rows rays) (vz p) (vx p) (vy p).
Proof.
  intros V T Ia Ib N z x y. pose proof (residuals_miss rays (V3 x y z) V) as E. cbn [vx vy vz] in E. rewrite E, residuals_miss by exact V.
  assert (Z : Rsum (map (fun s => miss s p) rays) = 0).
  { rewrite (Rsum_ext _ (fun _ => 0 * 0)); [rewrite Rsum_scal; ring|]. intros s Hs. rewrite Rmult_0_l. pose proof V as V'. rewrite Forall_forall in V'. apply (miss_zero s p (V' s Hs)). apply T; exact Hs. }
  rewrite Z. split.
  - apply Rsum_nonneg. intros s. apply miss_nonneg.
  - intros E0. assert (Q : V3 x y z = p).
    { pose proof (Rsum_zero_all _ _ (fun s => miss_nonneg s (V3 x y z)) (Req_le _ _ (eq_sym E0))) as Q. pose proof V as V'. rewrite Forall_forall in V'.
      apply (two_lines_meet_once a b); [exact N|apply (miss_zero a _ (V' a Ia)); apply Q; exact Ia|apply T; exact Ia|apply (miss_zero b _ (V' b Ib)); apply Q; exact Ib|apply T; exact Ib]. }
    subst p. cbn. lra.
Qed.
