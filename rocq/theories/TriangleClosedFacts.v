(** A closed form of the potential of a charged triangle, and its limit on the triangle. *)
From Coq Require Import Reals Lra Lia Psatz.
From Coquelicot Require Import Coquelicot.
From Verif Require Import Base Vec GeomModel GeomFacts TriangleModel TriangleSpec TriangleFacts SelfPotFacts.
Local Open Scope R_scope.

(** ** An antiderivative of the potential of a row *)
Definition rowR A b h u : R := sqrt (u * u + h * h + (A + b * u) * (A + b * u)).
Definition rowK A b h : R := sqrt (A * A + (1 + b * b) * (h * h)).
Definition rowG A b h u : R :=
  u * arcsinh ((A + b * u) / sqrt (u * u + h * h)) + A / sqrt (1 + b * b) * arcsinh (((1 + b * b) * u + A * b) / rowK A b h) -
  h * atan ((A * u - b * (h * h)) / (h * rowR A b h u)).

Lemma arcsinh_comp_derive (f : R -> R) (x l : R) : is_derive f x l -> is_derive (fun t => arcsinh (f t)) x (l / sqrt (f x * f x + 1)).
Proof.
  intros D. eapply is_derive_eq; [|exact (is_derive_comp arcsinh f x _ _ (arcsinh_derive _) D)].
  unfold scal; cbn. unfold mult; cbn. rewrite Rmult_1_r. reflexivity.
Qed.
Lemma atan_comp_derive (f : R -> R) (x l : R) : is_derive f x l -> is_derive (fun t => atan (f t)) x (l / (1 + f x * f x)).
Proof.
  intros D. assert (T : is_derive atan (f x) (/ (1 + f x ^ 2))) by (apply is_derive_Reals; apply derivable_pt_lim_atan).
  eapply is_derive_eq; [|exact (is_derive_comp atan f x _ _ T D)]. unfold scal; cbn. unfold mult; cbn. rewrite Rmult_1_r. reflexivity.
Qed.
Lemma rowG_derive (A b h u : R) : 0 < h -> is_derive (rowG A b h) u (arcsinh ((A + b * u) / sqrt (u * u + h * h))).
Proof.
  intros Hh.
  assert (Pr : 0 < u * u + h * h) by nra. assert (Ps : 0 < 1 + b * b) by nra.
  assert (PK : 0 < A * A + (1 + b * b) * (h * h)) by (assert (0 < (1 + b * b) * (h * h)) by (apply Rmult_lt_0_compat; nra); nra).
  assert (PR : 0 < u * u + h * h + (A + b * u) * (A + b * u)) by (pose proof (Rle_0_sqr (A + b * u)) as Q; unfold Rsqr in Q; lra).
  pose proof (sqrt_lt_R0 _ Pr) as Sr. pose proof (sqrt_lt_R0 _ Ps) as Ss. pose proof (sqrt_lt_R0 _ PK) as SK. pose proof (sqrt_lt_R0 _ PR) as SR.
  pose proof (sqrt_sqrt _ (Rlt_le _ _ Pr)) as Er. pose proof (sqrt_sqrt _ (Rlt_le _ _ Ps)) as Es. pose proof (sqrt_sqrt _ (Rlt_le _ _ PK)) as EK. pose proof (sqrt_sqrt _ (Rlt_le _ _ PR)) as ER.
  fold (rowK A b h) in *. fold (rowR A b h u) in *. set (s := sqrt (1 + b * b)) in *.
  assert (D1 : is_derive (fun u => arcsinh ((A + b * u) / sqrt (u * u + h * h))) u ((b * (h * h) - A * u) / ((u * u + h * h) * rowR A b h u))).
  { eapply is_derive_eq; [|apply (arcsinh_comp_derive (fun u => (A + b * u) / sqrt (u * u + h * h)) u ((b * (h * h) - A * u) / ((u * u + h * h) * sqrt (u * u + h * h))))].
    - assert (E : sqrt ((A + b * u) / sqrt (u * u + h * h) * ((A + b * u) / sqrt (u * u + h * h)) + 1) = rowR A b h u / sqrt (u * u + h * h)).
      { apply sqrt_lem_1; [match goal with |- 0 <= ?x * ?x + 1 => pose proof (Rle_0_sqr x); unfold Rsqr in *; lra end|apply Rdiv_le_0_compat; lra|].
        transitivity (rowR A b h u * rowR A b h u / (sqrt (u * u + h * h) * sqrt (u * u + h * h))); [field; lra|]. rewrite ER.
        transitivity ((A + b * u) * (A + b * u) / (sqrt (u * u + h * h) * sqrt (u * u + h * h)) + 1); [rewrite Er; field; lra|field; lra]. }
      rewrite E. field. repeat split; lra.
    - auto_derive; [repeat split; lra|]. set (r := sqrt (u * u + h * h)) in *. clearbody r.
      assert (Eh : h * h = r * r - u * u) by lra. rewrite Eh. replace (u * u + (r * r - u * u)) with (r * r) by ring. field. lra. }
  assert (D2 : is_derive (fun u => A / s * arcsinh (((1 + b * b) * u + A * b) / rowK A b h)) u (A / rowR A b h u)).
  { assert (D : is_derive (fun u => arcsinh (((1 + b * b) * u + A * b) / rowK A b h)) u (s / rowR A b h u)).
    { eapply is_derive_eq; [|apply (arcsinh_comp_derive (fun u => ((1 + b * b) * u + A * b) / rowK A b h) u ((1 + b * b) / rowK A b h)); auto_derive; [lra|field; lra]].
      assert (E : sqrt (((1 + b * b) * u + A * b) / rowK A b h * (((1 + b * b) * u + A * b) / rowK A b h) + 1) = s * rowR A b h u / rowK A b h).
      { apply sqrt_lem_1; [match goal with |- 0 <= ?x * ?x + 1 => pose proof (Rle_0_sqr x); unfold Rsqr in *; lra end|apply Rdiv_le_0_compat; [apply Rmult_le_pos; lra|lra]|].
        transitivity ((s * s) * (rowR A b h u * rowR A b h u) / (rowK A b h * rowK A b h)); [field; lra|]. rewrite ER, Es.
        transitivity (((1 + b * b) * u + A * b) * ((1 + b * b) * u + A * b) / (rowK A b h * rowK A b h) + 1); [rewrite EK; field; lra|field; lra]. }
      rewrite E, <- Es. field. repeat split; lra. }
    apply (is_derive_scal _ _ (A / s)) in D. eapply is_derive_eq; [|exact D]. field. split; lra. }
  assert (D3 : is_derive (fun u => atan ((A * u - b * (h * h)) / (h * rowR A b h u))) u (h * (A + b * u) / ((u * u + h * h) * rowR A b h u))).
  { eapply is_derive_eq; [|apply (atan_comp_derive (fun u => (A * u - b * (h * h)) / (h * rowR A b h u)) u
      ((A * A + (1 + b * b) * (h * h)) * (A + b * u) / (h * (rowR A b h u * rowR A b h u * rowR A b h u))))].
    - set (w := rowR A b h u) in *. clearbody w. rewrite <- EK.
      replace (1 + (A * u - b * (h * h)) / (h * w) * ((A * u - b * (h * h)) / (h * w))) with ((u * u + h * h) * (rowK A b h * rowK A b h) / (h * h * (w * w))).
      2: { rewrite EK. transitivity ((h * h * (w * w) + (A * u - b * (h * h)) * (A * u - b * (h * h))) / (h * h * (w * w))); [rewrite ER; field; split; nra|field; split; lra]. }
      field. repeat split; nra.
    - unfold rowR. auto_derive; [repeat split; [lra|apply Rgt_not_eq; apply Rmult_lt_0_compat; assumption]|].
      fold (rowR A b h u). set (w := rowR A b h u) in *. clearbody w.
      transitivity ((A * (w * w) - (A * u - b * (h * h)) * ((1 + b * b) * u + A * b)) / (h * (w * w * w))); [field; split; lra|].
      rewrite ER. replace (A * (u * u + h * h + (A + b * u) * (A + b * u)) - (A * u - b * (h * h)) * ((1 + b * b) * u + A * b)) with ((A * A + (1 + b * b) * (h * h)) * (A + b * u)) by ring.
      reflexivity. }
  unfold rowG. fold s.
  pose proof (is_derive_mult (fun u => u) _ u 1 _ (is_derive_id u) D1 Rmult_comm) as M.
  pose proof (is_derive_minus _ _ u _ _ (is_derive_plus _ _ u _ _ M D2) (is_derive_scal _ _ h _ D3)) as T.
  eapply is_derive_eq; [|exact T]. unfold plus, minus, opp, mult; cbn. unfold plus, opp, mult; cbn.
  set (w := rowR A b h u) in *. clearbody w. set (k := arcsinh _). clearbody k. field. split; lra.
Qed.

(** ** The whole triangle, seen from a point outside its plane *)
Definition max_b t : R := (nt_b t - nt_a t) / nt_c t.
Definition max_A t : R := nt_x0 t + nt_a t - nt_y0 t * max_b t.
Definition min_b t : R := nt_b t / nt_c t.
Definition min_A t : R := nt_x0 t - nt_y0 t * min_b t.
Definition rows_between (G : R -> R -> R -> R) (t : normalized_triangle) : R :=
  (G (max_A t) (max_b t) (nt_y0 t + nt_c t) - G (max_A t) (max_b t) (nt_y0 t)) - (G (min_A t) (min_b t) (nt_y0 t + nt_c t) - G (min_A t) (min_b t) (nt_y0 t)).
Lemma max_row t y : nt_c t <> 0 -> max_A t + max_b t * (y + nt_y0 t) = nt_xmax t y.
Proof. intros H. unfold max_A, max_b, nt_xmax. field. exact H. Qed.
Lemma min_row t y : nt_c t <> 0 -> min_A t + min_b t * (y + nt_y0 t) = nt_xmin t y.
Proof. intros H. unfold min_A, min_b, nt_xmin. field. exact H. Qed.
Lemma rowG_shift_derive A b h y0 y : 0 < h -> is_derive (fun y => rowG A b h (y + y0)) y (arcsinh ((A + b * (y + y0)) / sqrt ((y + y0) * (y + y0) + h * h))).
Proof.
  intros H. assert (D : is_derive (fun y => y + y0) y 1) by (auto_derive; [auto|ring]).
  eapply is_derive_eq; [|exact (is_derive_comp (rowG A b h) _ y _ _ (rowG_derive A b h (y + y0) H) D)]. unfold scal; cbn. unfold mult; cbn. ring.
Qed.
Lemma row_ex_derive A b h y0 y : 0 < h -> ex_derive (fun y => arcsinh ((A + b * (y + y0)) / sqrt ((y + y0) * (y + y0) + h * h))) y.
Proof.
  intros H. assert (P : 0 < (y + y0) * (y + y0) + h * h) by (apply sum_sq_pos; nra). pose proof (sqrt_lt_R0 _ P) as S.
  assert (E : ex_derive (fun y => (A + b * (y + y0)) / sqrt ((y + y0) * (y + y0) + h * h)) y) by (auto_derive; repeat split; auto; lra).
  destruct E as [l D]. eexists. apply arcsinh_comp_derive. exact D.
Qed.
Lemma closed_potential v0 v1 v2 p h : nondegenerate v0 v1 v2 -> 0 < h -> let t := normalized v0 v1 v2 p in nt_z t * nt_z t = h * h ->
  triangle_integral (coulomb p) v0 v1 v2 = rows_between (fun A b u => rowG A b h u) t.
Proof.
  intros N Hh t Hz. destruct (row_bounds v0 v1 v2 p 0 N) as (Pa & Pc & Ac & _). cbv zeta in *. fold t in Pa, Pc, Ac.
  assert (Nc : nt_c t <> 0) by lra.
  set (F := fun y => arcsinh ((max_A t + max_b t * (y + nt_y0 t)) / sqrt ((y + nt_y0 t) * (y + nt_y0 t) + h * h)) -
                     arcsinh ((min_A t + min_b t * (y + nt_y0 t)) / sqrt ((y + nt_y0 t) * (y + nt_y0 t) + h * h))).
  assert (I : is_RInt F 0 (nt_c t) (rows_between (fun A b u => rowG A b h u) t)).
  { set (P := fun y => rowG (max_A t) (max_b t) h (y + nt_y0 t) - rowG (min_A t) (min_b t) h (y + nt_y0 t)).
    replace (rows_between (fun A b u => rowG A b h u) t) with (P (nt_c t) - P 0).
    - apply is_RInt_derive_all.
      + intros y. apply (is_derive_minus (V := R_NormedModule)); apply rowG_shift_derive; exact Hh.
      + intros y. apply (ex_derive_minus (V := R_NormedModule)); apply row_ex_derive; exact Hh.
    - unfold P, rows_between. rewrite Rplus_0_l, (Rplus_comm (nt_c t)). ring. }
  rewrite <- (is_RInt_unique _ _ _ _ I). symmetry. apply outer_integral; [exact Pc|eexists; exact I|]. intros beta Hb. symmetry. apply is_RInt_unique. rewrite <- Ac.
  assert (E : row_r2 t beta = (beta * nt_c t + nt_y0 t) * (beta * nt_c t + nt_y0 t) + h * h) by (unfold row_r2; rewrite <- Hz; ring).
  assert (Q : 0 < row_r2 t beta) by (rewrite E; apply sum_sq_pos; nra).
  destruct (row_bounds v0 v1 v2 p beta N) as (_ & _ & _ & X1 & X2). cbv zeta in *. fold t in X1, X2.
  pose proof (inner_potential (row_x t beta) (nt_a t) (row_r2 t beta) (1 - beta) Q) as J.
  apply (is_RInt_scal (V := R_NormedModule) _ _ _ (nt_c t)) in J. unfold F. rewrite max_row, min_row, X1, X2, <- E by exact Nc.
  eapply is_RInt_ext; [|exact J]. intros s _. unfold coulomb. rewrite row_distance by exact N. fold t. unfold scal; cbn. unfold mult; cbn.
  set (w := sqrt _). unfold Rdiv. ring.
Qed.

Lemma filterlim_Rminus {T} (F : (T -> Prop) -> Prop) (FF : Filter F) (f g : T -> R) (a b : R) :
  filterlim f F (locally a) -> filterlim g F (locally b) -> filterlim (fun x => f x - g x) F (locally (a - b)).
Proof.
  intros Hf Hg. apply (filterlim_comp_2 (H := locally (opp b)) f (fun x => opp (g x)) plus Hf).
  - exact (filterlim_comp _ _ _ g opp F (locally b) _ Hg (filterlim_opp (V := R_NormedModule) b)).
  - apply (filterlim_plus (V := R_NormedModule) a (opp b)).
Qed.
(** ** Letting the point come down to the plane *)
Definition rowG0 A b u : R := u * arcsinh ((A + b * u) / Rabs u) + A / sqrt (1 + b * b) * arcsinh (((1 + b * b) * u + A * b) / Rabs A).
Lemma rowG_limit A b u : A <> 0 -> u <> 0 -> filterlim (fun h => rowG A b h u) (at_right 0) (locally (rowG0 A b u)).
Proof.
  intros HA Hu.
  assert (Pu : 0 < u * u) by (pose proof (Rsqr_pos_lt u Hu); unfold Rsqr in *; lra). assert (PA : 0 < A * A) by (pose proof (Rsqr_pos_lt A HA); unfold Rsqr in *; lra).
  set (f := fun h => u * arcsinh ((A + b * u) / sqrt (u * u + h * h)) + A / sqrt (1 + b * b) * arcsinh (((1 + b * b) * u + A * b) / rowK A b h)).
  assert (F0 : f 0 = rowG0 A b u).
  { unfold f, rowG0, rowK. rewrite !Rmult_0_l, !Rmult_0_r, !Rplus_0_r. fold (Rsqr u). fold (Rsqr A). rewrite !sqrt_Rsqr_abs. reflexivity. }
  assert (C : continuous f 0).
  { apply (ex_derive_continuous (V := R_NormedModule)). unfold f.
    assert (E1 : ex_derive (fun h => (A + b * u) / sqrt (u * u + h * h)) 0).
    { assert (P : 0 < u * u + 0 * 0) by lra. pose proof (sqrt_lt_R0 _ P). auto_derive. repeat split; auto; lra. }
    assert (E2 : ex_derive (fun h => ((1 + b * b) * u + A * b) / rowK A b h) 0).
    { unfold rowK. assert (P : 0 < A * A + (1 + b * b) * (0 * 0)) by lra. pose proof (sqrt_lt_R0 _ P). auto_derive. repeat split; auto; lra. }
    destruct E1 as [l1 E1]. destruct E2 as [l2 E2]. apply arcsinh_comp_derive in E1. apply arcsinh_comp_derive in E2.
    apply (ex_derive_plus (V := R_NormedModule)); apply ex_derive_scal; eexists; eassumption. }
  assert (L1 : filterlim f (at_right 0) (locally (rowG0 A b u))).
  { rewrite <- F0. intros P HP. specialize (C P HP). unfold filtermap in *. apply filter_le_within. exact C. }
  assert (L2 : filterlim (fun h => h * atan ((A * u - b * (h * h)) / (h * rowR A b h u))) (at_right 0) (locally 0)).
  { apply filterlim_locally. intros eps. exists (mkposreal (eps / 2) ltac:(destruct eps as [e He]; cbn; lra)). intros h Hb Hp. cbn in Hb.
    change (Rabs (h * atan ((A * u - b * (h * h)) / (h * rowR A b h u)) - 0) < eps). unfold ball in Hb; cbn in Hb. unfold AbsRing_ball, abs, minus, plus, opp in Hb; cbn in Hb.
    rewrite Ropp_0, Rplus_0_r in Hb. rewrite Rminus_0_r, Rabs_mult. pose proof (atan_bound ((A * u - b * (h * h)) / (h * rowR A b h u))) as [B1 B2].
    set (k := atan _) in *. clearbody k. pose proof PI_4 as P4. pose proof PI_RGT_0.
    assert (Rabs k <= 2) by (apply Rabs_le; lra). pose proof (Rabs_pos h). destruct eps as [e He]. cbn in *. nra. }
  replace (rowG0 A b u) with (rowG0 A b u - 0) by ring. exact (filterlim_Rminus _ _ _ _ _ _ L1 L2).
Qed.
Lemma dot_vadd_l u v w : dot (vadd u v) w = dot u w + dot v w.
Proof. unfold dot, vadd. cbn [vx vy vz]. ring. Qed.
Lemma dot_vscale_l k v w : dot (vscale k v) w = k * dot v w.
Proof. unfold dot, vscale. cbn [vx vy vz]. ring. Qed.
Lemma dot_vsub_l u v w : dot (vsub u v) w = dot u w - dot v w.
Proof. unfold dot, vsub. cbn [vx vy vz]. ring. Qed.
(** A point of the plane of the triangle in the frame of the triangle. *)
Lemma inside_normalized v0 v1 v2 alpha beta : nondegenerate v0 v1 v2 ->
  let t := normalized v0 v1 v2 (triangle_point v0 v1 v2 alpha beta) in
  nt_x0 t = - (alpha * nt_a t + beta * nt_b t) /\ nt_y0 t = - (beta * nt_c t) /\ nt_z t = 0.
Proof.
  intros N t. destruct (offset_coordinates v0 v1 v2 (triangle_point v0 v1 v2 alpha beta) alpha beta N) as (X & Y & Z). cbv zeta in *. fold t in X, Y, Z.
  rewrite <- triangle_point_position in X, Y, Z. 
  assert (E : vsub (triangle_point v0 v1 v2 alpha beta) (triangle_point v0 v1 v2 alpha beta) = vzero) by (unfold vsub, vzero; f_equal; ring).
  rewrite E in X, Y, Z. assert (D : forall w, dot vzero w = 0) by (intros w; unfold dot, vzero; cbn [vx vy vz]; ring). rewrite D in X, Y, Z. repeat split; lra.
Qed.
Lemma lifted_normalized v0 v1 v2 p n h : nondegenerate v0 v1 v2 -> dot n n = 1 -> dot n (vsub v1 v0) = 0 -> dot n (vsub v2 v0) = 0 ->
  let t := normalized v0 v1 v2 p in let t' := normalized v0 v1 v2 (vadd p (vscale h n)) in
  nt_x0 t' = nt_x0 t /\ nt_y0 t' = nt_y0 t /\ nt_a t' = nt_a t /\ nt_b t' = nt_b t /\ nt_c t' = nt_c t /\ (nt_z t = 0 -> nt_z t' * nt_z t' = h * h).
Proof.
  intros N Hn H1 H2 t t'. destruct (triangle_frame _ _ _ N) as (O & D & E1 & E2 & P1 & P2 & _). cbv zeta in *.
  assert (Nx : dot n (x_axis v0 v1) = 0).
  { rewrite E1, dot_comm, dot_vscale_l, dot_comm in H1. apply Rmult_integral in H1. destruct H1; [lra|assumption]. }
  assert (Ny : dot n (y_axis v0 v1 v2) = 0).
  { rewrite E2, dot_comm, dot_vadd_l, !dot_vscale_l in H2. rewrite (dot_comm (x_axis v0 v1) n), (dot_comm (y_axis v0 v1 v2) n), Nx in H2.
    assert (H3 : dot (vsub v2 v0) (y_axis v0 v1 v2) * dot n (y_axis v0 v1 v2) = 0) by lra. apply Rmult_integral in H3. destruct H3; [lra|assumption]. }
  assert (Nz : dot n (z_axis v0 v1 v2) * dot n (z_axis v0 v1 v2) = 1).
  { rewrite (frame_dot _ _ _ n n O D), Nx, Ny in Hn. lra. }
  assert (L : forall w, dot (vsub v0 (vadd p (vscale h n))) w = dot (vsub v0 p) w - h * dot n w).
  { intros w. rewrite !dot_vsub_l, dot_vadd_l, dot_vscale_l. ring. }
  unfold t, t', normalized. cbn [nt_x0 nt_y0 nt_a nt_b nt_c nt_z]. rewrite !(dot_comm (z_axis v0 v1 v2)), !L, Nx, Ny. repeat split; try ring.
  intros Z. replace (dot (vsub v0 p) (z_axis v0 v1 v2)) with 0 by lra.
  transitivity (h * h * (dot n (z_axis v0 v1 v2) * dot n (z_axis v0 v1 v2))); [ring|rewrite Nz; ring].
Qed.
Lemma inside_signs v0 v1 v2 p : nondegenerate v0 v1 v2 -> strictly_inside v0 v1 v2 p -> let t := normalized v0 v1 v2 p in
  nt_z t = 0 /\ nt_y0 t < 0 < nt_y0 t + nt_c t /\ 0 < max_A t /\ min_A t < 0 /\ 0 < nt_a t /\ 0 < nt_c t.
Proof.
  intros N (alpha & beta & Ha & Hb & Hs & ->) t. destruct (inside_normalized v0 v1 v2 alpha beta N) as (X & Y & Z). cbv zeta in *. fold t in X, Y, Z.
  destruct (row_bounds v0 v1 v2 (triangle_point v0 v1 v2 alpha beta) 0 N) as (Pa & Pc & _). cbv zeta in *. fold t in Pa, Pc.
  assert (EA : max_A t = nt_a t * (1 - alpha - beta)) by (unfold max_A, max_b; rewrite X, Y; field; lra).
  assert (EB : min_A t = - (alpha * nt_a t)) by (unfold min_A, min_b; rewrite X, Y; field; lra).
  rewrite EA, EB, Y. repeat split; try assumption; nra.
Qed.
Lemma lifted_limit v0 v1 v2 p n : nondegenerate v0 v1 v2 -> strictly_inside v0 v1 v2 p -> dot n n = 1 -> dot n (vsub v1 v0) = 0 -> dot n (vsub v2 v0) = 0 ->
  filterlim (fun h => triangle_integral (coulomb (vadd p (vscale h n))) v0 v1 v2) (at_right 0) (locally (rows_between rowG0 (normalized v0 v1 v2 p))).
Proof.
  intros N I Hn H1 H2. destruct (inside_signs _ _ _ _ N I) as (Z & Y & A1 & A2 & Pa & Pc). cbv zeta in *. set (t := normalized v0 v1 v2 p) in *.
  apply (filterlim_ext_loc (fun h => rows_between (fun A b u => rowG A b h u) t)).
  - exists (mkposreal 1 Rlt_0_1). intros h _ Hh. destruct (lifted_normalized v0 v1 v2 p n h N Hn H1 H2) as (E1 & E2 & E3 & E4 & E5 & E6). cbv zeta in *. fold t in E1, E2, E3, E4, E5, E6.
    rewrite (closed_potential v0 v1 v2 _ h N Hh (E6 Z)). unfold rows_between, max_A, max_b, min_A, min_b. rewrite E1, E2, E3, E4, E5. reflexivity.
  - unfold rows_between. repeat (apply filterlim_Rminus; [apply within_filter; apply locally_filter| |]); apply rowG_limit; lra.
Qed.

(** ** The sum over the edges *)
(** The code's value for one edge, without coordinates. *)
Lemma self_v0_free p v1 v2 : nondegenerate p v1 v2 ->
  self_potential_triangle_v0 p v1 v2 =
  norm (cross (vsub v1 p) (vsub v2 p)) / norm (vsub v2 v1) *
  (arcsinh (dot (vsub v2 p) (vsub v2 v1) / norm (cross (vsub v1 p) (vsub v2 p))) - arcsinh (dot (vsub v1 p) (vsub v2 v1) / norm (cross (vsub v1 p) (vsub v2 p)))).
Proof.
  intros N. rewrite (self_v0_edge p v1 v2 N), (cross_norm p v1 v2 N). destruct (triangle_frame _ _ _ N) as (O & D & E1 & E2 & P1 & P2 & _). cbv zeta in *.
  set (x := x_axis p v1) in *. set (y := y_axis p v1 v2) in *. set (a := norm (vsub v1 p)) in *. set (b := dot (vsub v2 p) x) in *. set (c := dot (vsub v2 p) y) in *.
  destruct O as [Oxx Oyy Ozz Oxy Oxz Oyz].
  assert (E : vsub v2 v1 = vadd (vscale (b - a) x) (vscale c y)).
  { transitivity (vsub (vsub v2 p) (vsub v1 p)); [apply vec_eq; unfold vsub; cbn [vx vy vz]; ring|]. rewrite E1, E2. apply vec_eq; unfold vsub, vadd, vscale; cbn [vx vy vz]; ring. }
  assert (Q1 : dot (vsub v2 p) (vsub v2 v1) = (b - a) * b + c ^ 2).
  { rewrite dot_comm, E, dot_vadd_l, !dot_vscale_l, (dot_comm x), (dot_comm y). fold b c. ring. }
  assert (Q2 : dot (vsub v1 p) (vsub v2 v1) = a * (b - a)).
  { rewrite E1, dot_vscale_l, (dot_comm x), E, dot_vadd_l, !dot_vscale_l, Oxx, (dot_comm y), Oxy. ring. }
  assert (Q3 : norm (vsub v2 v1) = sqrt ((b - a) ^ 2 + c ^ 2)).
  { rewrite norm_dot. f_equal. rewrite E at 1. rewrite dot_vadd_l, !dot_vscale_l, (dot_comm x), (dot_comm y). rewrite E, !dot_vadd_l, !dot_vscale_l, Oxx, Oyy, (dot_comm y x), Oxy. ring. }
  rewrite Q1, Q2, Q3. replace (a * (b - a) / (a * c)) with ((b - a) / c) by (field; lra). reflexivity.
Qed.

Section Plane.
Variables x y : vec3.
Hypothesis Oxx : dot x x = 1.
Hypothesis Oyy : dot y y = 1.
Hypothesis Oxy : dot x y = 0.
Definition pl (s t : R) : vec3 := vadd (vscale s x) (vscale t y).
Lemma pl_dot s1 t1 s2 t2 : dot (pl s1 t1) (pl s2 t2) = s1 * s2 + t1 * t2.
Proof.
  unfold pl. rewrite dot_vadd_l, !dot_vscale_l, (dot_comm x), (dot_comm y), !dot_vadd_l, !dot_vscale_l, Oxx, Oyy, (dot_comm y x), Oxy. ring.
Qed.
Lemma pl_cross_norm s1 t1 s2 t2 : norm (cross (pl s1 t1) (pl s2 t2)) = Rabs (s1 * t2 - s2 * t1).
Proof.
  rewrite norm_dot, <- sqrt_Rsqr_abs. f_equal.
  transitivity (dot (pl s1 t1) (pl s1 t1) * dot (pl s2 t2) (pl s2 t2) - dot (pl s1 t1) (pl s2 t2) * dot (pl s1 t1) (pl s2 t2)).
  - unfold dot, cross. cbn [vx vy vz]. ring.
  - rewrite !pl_dot. unfold Rsqr. ring.
Qed.
Lemma pl_norm s t : norm (pl s t) = sqrt (s * s + t * t).
Proof. rewrite norm_dot, pl_dot. reflexivity. Qed.
(** One edge of the triangle, in coordinates. *)
Lemma pl_edge p v1 v2 s1 t1 s2 t2 : vsub v1 p = pl s1 t1 -> vsub v2 p = pl s2 t2 -> 0 < s1 * t2 - s2 * t1 ->
  let N := s1 * t2 - s2 * t1 in
  self_potential_triangle_v0 p v1 v2 =
  N / sqrt ((s2 - s1) * (s2 - s1) + (t2 - t1) * (t2 - t1)) *
  (arcsinh ((s2 * (s2 - s1) + t2 * (t2 - t1)) / N) - arcsinh ((s1 * (s2 - s1) + t1 * (t2 - t1)) / N)).
Proof.
  intros E1 E2 P N. assert (C : norm (cross (vsub v1 p) (vsub v2 p)) = N) by (rewrite E1, E2, pl_cross_norm, Rabs_right; [reflexivity|lra]).
  assert (E : vsub v2 v1 = pl (s2 - s1) (t2 - t1)).
  { transitivity (vsub (vsub v2 p) (vsub v1 p)); [apply vec_eq; unfold vsub; cbn [vx vy vz]; ring|]. rewrite E1, E2. unfold pl. apply vec_eq; unfold vsub, vadd, vscale; cbn [vx vy vz]; ring. }
  rewrite self_v0_free.
  - rewrite C, E, E1, E2, pl_norm, !pl_dot. reflexivity.
  - intros Z. rewrite Z in C. rewrite (proj2 (norm_zero _) eq_refl) in C. unfold N in C. lra.
Qed.
End Plane.

Lemma sqrt_pull c b : 0 < c -> sqrt ((c * b) * (c * b) + c * c) = c * sqrt (1 + b * b).
Proof.
  intros H. replace ((c * b) * (c * b) + c * c) with (Rsqr c * (1 + b * b)) by (unfold Rsqr; ring). rewrite sqrt_mult; [|apply Rle_0_sqr|nra]. rewrite sqrt_Rsqr by lra. reflexivity.
Qed.
Lemma arcsinh_odd u : arcsinh (- u) = - arcsinh u.
Proof.
  assert (S : forall v, sinh (- v) = - sinh v) by (intros v; unfold sinh; rewrite Ropp_involutive; field).
  rewrite <- (sinh_arcsinh u) at 1. rewrite <- S. apply arcsinh_sinh.
Qed.
Theorem rows_between_self v0 v1 v2 p : nondegenerate v0 v1 v2 -> strictly_inside v0 v1 v2 p ->
  rows_between rowG0 (normalized v0 v1 v2 p) = self_potential_triangle v0 v1 v2 p.
Proof.
  intros N I. destruct (inside_signs _ _ _ _ N I) as (Z & [Y1 Y2] & A1 & A2 & Pa & Pc). cbv zeta in *.
  destruct (triangle_frame _ _ _ N) as ([Oxx Oyy Ozz Oxy Oxz Oyz] & D & E1 & E2 & _). cbv zeta in *. set (t := normalized v0 v1 v2 p) in *.
  set (x := x_axis v0 v1) in *. set (y := y_axis v0 v1 v2) in *.
  assert (Ea : nt_a t = norm (vsub v1 v0)) by reflexivity. assert (Eb : nt_b t = dot (vsub v2 v0) x) by reflexivity. assert (Ec : nt_c t = dot (vsub v2 v0) y) by reflexivity.
  rewrite <- Ea in E1. rewrite <- Eb, <- Ec in E2.
  assert (Q0 : vsub v0 p = pl x y (nt_x0 t) (nt_y0 t)).
  { rewrite (D (vsub v0 p)) at 1. replace (dot (vsub v0 p) (z_axis v0 v1 v2)) with 0; [unfold pl, t, normalized; cbn [nt_x0 nt_y0]; fold x y; apply vec_eq; unfold vadd, vscale; cbn [vx vy vz]; ring|].
    unfold t, normalized in Z. cbn [nt_z] in Z. rewrite dot_comm in Z. lra. }
  assert (Q1 : vsub v1 p = pl x y (nt_x0 t + nt_a t) (nt_y0 t)).
  { transitivity (vadd (vsub v1 v0) (vsub v0 p)); [apply vec_eq; unfold vsub, vadd; cbn [vx vy vz]; ring|]. rewrite Q0, E1. apply vec_eq; unfold pl, vadd, vscale; cbn [vx vy vz]; ring. }
  assert (Q2 : vsub v2 p = pl x y (nt_x0 t + nt_b t) (nt_y0 t + nt_c t)).
  { transitivity (vadd (vsub v2 v0) (vsub v0 p)); [apply vec_eq; unfold vsub, vadd; cbn [vx vy vz]; ring|]. rewrite Q0, E2. apply vec_eq; unfold pl, vadd, vscale; cbn [vx vy vz]; ring. }
  set (X0 := nt_x0 t) in *. set (Y0 := nt_y0 t) in *. set (a := nt_a t) in *. set (b := nt_b t) in *. set (c := nt_c t) in *.
  assert (F1 : X0 * Y0 - (X0 + a) * Y0 = a * - Y0) by ring.
  assert (F2 : (X0 + a) * (Y0 + c) - (X0 + b) * Y0 = c * max_A t) by (unfold max_A, max_b; fold X0 Y0 a b c; field; lra).
  assert (F3 : (X0 + b) * Y0 - X0 * (Y0 + c) = c * - min_A t) by (unfold min_A, min_b; fold X0 Y0 a b c; field; lra).
  unfold self_potential_triangle.
  rewrite (pl_edge x y Oxx Oyy Oxy p v0 v1 _ _ _ _ Q0 Q1) by nra. rewrite (pl_edge x y Oxx Oyy Oxy p v1 v2 _ _ _ _ Q1 Q2) by nra. rewrite (pl_edge x y Oxx Oyy Oxy p v2 v0 _ _ _ _ Q2 Q0) by nra.
  cbv zeta. rewrite F1, F2, F3. unfold rows_between, rowG0. fold Y0 c.
  assert (M1 : max_A t + max_b t * (Y0 + c) = X0 + b) by (unfold max_A, max_b; fold X0 Y0 a b c; field; lra).
  assert (M2 : max_A t + max_b t * Y0 = X0 + a) by (unfold max_A, max_b; fold X0 Y0 a b c; field; lra).
  assert (M3 : min_A t + min_b t * (Y0 + c) = X0 + b) by (unfold min_A, min_b; fold X0 Y0 a b c; field; lra).
  assert (M4 : min_A t + min_b t * Y0 = X0) by (unfold min_A, min_b; fold X0 Y0 a b c; field; lra).
  assert (B1 : b - a = c * max_b t) by (unfold max_b; fold a b c; field; lra). assert (B2 : b = c * min_b t) by (unfold min_b; fold a b c; field; lra).
  set (A := max_A t) in *. set (be := max_b t) in *. set (A' := min_A t) in *. set (be' := min_b t) in *. clearbody A be A' be'.
  rewrite M1, M2, M3, M4. rewrite (Rabs_left Y0), (Rabs_right (Y0 + c)), (Rabs_right A), (Rabs_left A') by lra.
  (* the three edges *)
  replace (X0 + a - X0) with a by ring. replace (Y0 - Y0) with 0 by ring. replace (a * a + 0 * 0) with (Rsqr a) by (unfold Rsqr; ring). rewrite sqrt_Rsqr by lra.
  replace (((X0 + a) * a + Y0 * 0) / (a * - Y0)) with ((X0 + a) / - Y0) by (field; lra). replace ((X0 * a + Y0 * 0) / (a * - Y0)) with (X0 / - Y0) by (field; lra).
  replace (X0 + b - (X0 + a)) with (c * be) by lra. replace (Y0 + c - Y0) with c by ring. rewrite (sqrt_pull c be Pc).
  replace (((X0 + b) * (c * be) + (Y0 + c) * c) / (c * A)) with (((1 + be * be) * (Y0 + c) + A * be) / A) by (rewrite <- M1; field; lra).
  replace (((X0 + a) * (c * be) + Y0 * c) / (c * A)) with (((1 + be * be) * Y0 + A * be) / A) by (rewrite <- M2; field; lra).
  replace (X0 - (X0 + b)) with (c * - be') by lra. replace (Y0 - (Y0 + c)) with (- c) by ring. replace (- c * - c) with (c * c) by ring. rewrite (sqrt_pull c (- be') Pc). replace (- be' * - be') with (be' * be') by ring.
  replace ((X0 * (c * - be') + Y0 * - c) / (c * - A')) with (- (((1 + be' * be') * Y0 + A' * be') / - A')) by (rewrite <- M4; field; lra).
  replace (((X0 + b) * (c * - be') + (Y0 + c) * - c) / (c * - A')) with (- (((1 + be' * be') * (Y0 + c) + A' * be') / - A')) by (rewrite <- M3; field; lra).
  rewrite !arcsinh_odd.
  assert (S1 : 0 < sqrt (1 + be * be)) by (apply sqrt_lt_R0; nra). assert (S2 : 0 < sqrt (1 + be' * be')) by (apply sqrt_lt_R0; nra).
  field. repeat split; lra.
Qed.
