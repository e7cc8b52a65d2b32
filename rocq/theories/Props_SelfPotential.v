(** Property theorems about a charged triangle at its own points: C75, and C66 at the centroid. *)
From Coq Require Import Reals Lra Lia Psatz.
From Coquelicot Require Import Coquelicot.
From Verif Require Import Base BaseFacts Vec GeomModel TriangleModel TriangleSpec TriangleFacts SelfPotFacts TriangleClosedFacts TriangleDiagFacts.
Local Open Scope R_scope.

(** ** C75 Potential of a charged triangle at its own points *)
(** At every point strictly inside the triangle self_potential_triangle is the potential of the triangle
    there, from whichever side the point is approached. *)
Theorem C75_self_potential v0 v1 v2 target :
  cross (vsub v1 v0) (vsub v2 v0) <> vzero -> strictly_inside v0 v1 v2 target ->
  potential_on_triangle v0 v1 v2 target (self_potential_triangle v0 v1 v2 target).
Proof.
  intros N I n Hn H1 H2. rewrite <- (rows_between_self v0 v1 v2 target N I). apply lifted_limit; try assumption.
  rewrite <- norm_sq, Hn. ring.
Qed.
Print Assumptions C75_self_potential.
(** The potential of a triangle at its own point is one number: the specification determines it. *)
Theorem C75_unique v0 v1 v2 target V W :
  cross (vsub v1 v0) (vsub v2 v0) <> vzero -> potential_on_triangle v0 v1 v2 target V -> potential_on_triangle v0 v1 v2 target W -> V = W.
Proof.
  intros N HV HW. destruct (triangle_frame _ _ _ N) as ([Oxx Oyy Ozz Oxy Oxz Oyz] & _ & E1 & E2 & _). cbv zeta in *.
  set (z := z_axis v0 v1 v2) in *. assert (Nz : norm z = 1) by (apply norm_unique; lra).
  assert (Z1 : dot z (vsub v1 v0) = 0) by (rewrite dot_comm, E1, dot_vscale_l, Oxz; ring).
  assert (Z2 : dot z (vsub v2 v0) = 0) by (rewrite dot_comm, E2, dot_vadd_l, !dot_vscale_l, Oxz, Oyz; ring).
  exact (filterlim_locally_unique (F := at_right 0) (FF := Proper_StrongProper _ (at_right_proper_filter 0)) _ V W (HV z Nz Z1 Z2) (HW z Nz Z1 Z2)).
Qed.
Print Assumptions C75_unique.
(** At the first vertex: the triangle without the tip of relative size [e] at that vertex has the potential
    (1 - e) * self_potential_triangle_v0 there.  The points of the triangle are written as
    s (1 - t) and s t, with area element s |(v1 - v0) x (v2 - v0)| ds dt. *)
Theorem C75_vertex v0 v1 v2 e :
  cross (vsub v1 v0) (vsub v2 v0) <> vzero -> 0 < e <= 1 ->
  is_RInt (fun t => RInt (fun s => s * norm (cross (vsub v1 v0) (vsub v2 v0)) * coulomb v0 (triangle_point v0 v1 v2 (s * (1 - t)) (s * t))) e 1) 0 1
    ((1 - e) * self_potential_triangle_v0 v0 v1 v2).
Proof. intros N He. exact (corner_integral v0 v1 v2 e N He). Qed.
Print Assumptions C75_vertex.
Definition ex_self := (V3 0 0 0, V3 3 0 0, V3 0 3 0).
Example C75_nonvacuous : let '(v0, v1, v2) := ex_self in
  cross (vsub v1 v0) (vsub v2 v0) <> vzero /\ strictly_inside v0 v1 v2 (V3 1 1 0) /\
  norm (V3 0 0 (-1)) = 1 /\ dot (V3 0 0 (-1)) (vsub v1 v0) = 0 /\ dot (V3 0 0 (-1)) (vsub v2 v0) = 0.
Proof.
  cbn [ex_self]. split; [|split; [|split; [apply norm_unique; [lra|]; unfold dot; cbn [vx vy vz]; ring|split; unfold dot, vsub; cbn [vx vy vz]; ring]]].
  - unfold cross, vsub, vzero. cbn [vx vy vz]. intros E. injection E as E. lra.
  - exists (1 / 3), (1 / 3). repeat split; try lra. unfold triangle_point. apply vec_eq; unfold vadd, vsub, vscale; cbn [vx vy vz]; field.
Qed.

(** ** C66 The diagonal of the solver *)
(** potential_triangle at the centroid of the triangle itself, where its integrand is replaced within 1e-12
    of the centroid, differs from the potential there by no more than a few 1e-12 times logarithm and
    slenderness of the triangle: [l] bounds the other two edges, [height] is the height over the first. *)
Theorem C66_centroid_partial v0 v1 v2 l :
  cross (vsub v1 v0) (vsub v2 v0) <> vzero -> dist3 v2 v0 <= l -> dist3 v2 v1 <= l ->
  let a := dist3 v1 v0 in let area2 := norm (cross (vsub v1 v0) (vsub v2 v0)) in let height := area2 / a in
  6e-12 <= height -> 6e-12 * l <= area2 ->
  let centroid := triangle_point v0 v1 v2 (1 / 3) (1 / 3) in
  exists V, potential_on_triangle v0 v1 v2 centroid V /\
    Rabs (potential_triangle (fun f lo hi => RInt f lo hi) v0 v1 v2 centroid - V) <= 4e-12 * (arcsinh (a / 1e-12) + l / height + 1).
Proof.
  intros N L1 L2 a area2 height H1 H2 p. exists (self_potential_triangle v0 v1 v2 p). split; [|exact (centroid_bound v0 v1 v2 l N L1 L2 H1 H2)].
  apply C75_self_potential; [exact N|]. exists (1 / 3), (1 / 3). repeat split; lra.
Qed.
Print Assumptions C66_centroid_partial.
Example C66_centroid_nonvacuous : let '(v0, v1, v2) := ex_self in
  dist3 v2 v0 <= 6 /\ dist3 v2 v1 <= 6 /\ 6e-12 <= norm (cross (vsub v1 v0) (vsub v2 v0)) / dist3 v1 v0 /\ 6e-12 * 6 <= norm (cross (vsub v1 v0) (vsub v2 v0)).
Proof.
  cbn [ex_self]. assert (E1 : dist3 (V3 3 0 0) (V3 0 0 0) = 3) by (apply norm_unique; [lra|]; unfold dot, vsub; cbn [vx vy vz]; ring).
  assert (E2 : dist3 (V3 0 3 0) (V3 0 0 0) = 3) by (apply norm_unique; [lra|]; unfold dot, vsub; cbn [vx vy vz]; ring).
  assert (E3 : norm (cross (vsub (V3 3 0 0) (V3 0 0 0)) (vsub (V3 0 3 0) (V3 0 0 0))) = 9) by (apply norm_unique; [lra|]; unfold dot, cross, vsub; cbn [vx vy vz]; ring).
  rewrite E1, E2, E3. split; [lra|]. split; [|split; lra].
  unfold dist3, norm, vsub. cbn [vx vy vz]. apply Rle_trans with (sqrt (6 * 6)); [apply sqrt_le_1_alt; lra|rewrite sqrt_square by lra; lra].
Qed.
