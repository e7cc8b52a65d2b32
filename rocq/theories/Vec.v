(** Vectors in three dimensions over the reals. *)
From Coq Require Import Reals Lra Psatz.
Local Open Scope R_scope.

Record vec3 := V3 { vx : R; vy : R; vz : R }.

Definition vzero : vec3 := V3 0 0 0.
Definition vadd (a b : vec3) : vec3 := V3 (vx a + vx b) (vy a + vy b) (vz a + vz b).
Definition vsub (a b : vec3) : vec3 := V3 (vx a - vx b) (vy a - vy b) (vz a - vz b).
Definition vneg (a : vec3) : vec3 := V3 (- vx a) (- vy a) (- vz a).
Definition vscale (k : R) (a : vec3) : vec3 := V3 (k * vx a) (k * vy a) (k * vz a).
Definition dot (a b : vec3) : R := vx a * vx b + vy a * vy b + vz a * vz b.
Definition cross (a b : vec3) : vec3 :=
  V3 (vy a * vz b - vz a * vy b) (vz a * vx b - vx a * vz b) (vx a * vy b - vy a * vx b).
Definition norm (a : vec3) : R := sqrt (vx a * vx a + vy a * vy a + vz a * vz a).
Definition dist3 (a b : vec3) : R := norm (vsub a b).
Definition ex : vec3 := V3 1 0 0.
Definition ey : vec3 := V3 0 1 0.
Definition ez : vec3 := V3 0 0 1.

Lemma vec_eq a b : vx a = vx b -> vy a = vy b -> vz a = vz b -> a = b.
Proof. destruct a, b; simpl; intros -> -> ->; reflexivity. Qed.

Ltac vec_ring := apply vec_eq; simpl; ring.
Ltac vec_field := apply vec_eq; simpl; field.

Lemma norm_sq a : norm a * norm a = dot a a.
Proof.
  unfold norm, dot. apply sqrt_sqrt.
  pose proof (Rle_0_sqr (vx a)); pose proof (Rle_0_sqr (vy a)); pose proof (Rle_0_sqr (vz a)).
  unfold Rsqr in *. lra.
Qed.
Lemma dot_self_nonneg a : 0 <= dot a a.
Proof. rewrite <- norm_sq. apply Rle_0_sqr. Qed.
Lemma norm_nonneg a : 0 <= norm a.
Proof. apply sqrt_pos. Qed.
Lemma norm_dot a : norm a = sqrt (dot a a).
Proof. reflexivity. Qed.
Lemma norm_eq a b : dot a a = dot b b -> norm a = norm b.
Proof. intros H. rewrite !norm_dot, H. reflexivity. Qed.
Lemma norm_zero a : norm a = 0 <-> a = vzero.
Proof.
  split.
  - intros H. pose proof (norm_sq a) as E. rewrite H, Rmult_0_l in E. unfold dot in E.
    pose proof (Rle_0_sqr (vx a)); pose proof (Rle_0_sqr (vy a)); pose proof (Rle_0_sqr (vz a)).
    unfold Rsqr in *.
    apply vec_eq; simpl; apply Rsqr_0_uniq; unfold Rsqr; lra.
  - intros ->. unfold norm; simpl. replace (0 * 0 + 0 * 0 + 0 * 0) with 0 by ring. apply sqrt_0.
Qed.
Lemma norm_scale k a : norm (vscale k a) = Rabs k * norm a.
Proof.
  rewrite !norm_dot. replace (dot (vscale k a) (vscale k a)) with (k * k * dot a a)
    by (unfold dot; simpl; ring).
  rewrite sqrt_mult; [|apply Rle_0_sqr|apply dot_self_nonneg]. f_equal. apply sqrt_Rsqr_abs.
Qed.
Lemma norm_unique a r : 0 <= r -> dot a a = r * r -> norm a = r.
Proof. intros Hr H. rewrite norm_dot, H. apply sqrt_square; assumption. Qed.
Lemma dot_comm a b : dot a b = dot b a.
Proof. unfold dot; ring. Qed.
Lemma cross_dot_l a b : dot a (cross a b) = 0.
Proof. unfold dot, cross; simpl; ring. Qed.
Lemma cross_dot_r a b : dot b (cross a b) = 0.
Proof. unfold dot, cross; simpl; ring. Qed.
Lemma lagrange a b : dot (cross a b) (cross a b) = dot a a * dot b b - dot a b * dot a b.
Proof. unfold dot, cross; simpl; ring. Qed.
Lemma dist_sq a b : dist3 a b * dist3 a b = dot (vsub a b) (vsub a b).
Proof. apply norm_sq. Qed.
(** The inner product of two differences in terms of distances. *)
Lemma dot_dist o a b :
  2 * dot (vsub a o) (vsub b o) =
  dist3 a o * dist3 a o + dist3 b o * dist3 b o - dist3 a b * dist3 a b.
Proof. rewrite !dist_sq. unfold dot, vsub; simpl; ring. Qed.
