(** Facts about concatenation, cutting, phase, lines, circles and arcs (C19-C21). *)
From Coq Require Import Reals Lra Lia Permutation Psatz.
From Coquelicot Require Import Coquelicot.
From Verif Require Import Base BaseFacts Vec GeomModel GeomFacts QuadModel KronrodFacts PathModel PathSpec PathFacts.
Local Open Scope R_scope.

(** ** points_close *)
Lemma close1_true a b : close1 a b = true <-> Rabs (a - b) <= 1 / 10^8 + 1 / 10^5 * Rabs b.
Proof. unfold close1. apply Rleb_true. Qed.
Lemma close1_refl a : close1 a a = true.
Proof.
  apply close1_true. replace (a - a) with 0 by ring. rewrite Rabs_R0. pose proof (Rabs_pos a). lra.
Qed.
Lemma points_close_refl p : points_close p p = true.
Proof. unfold points_close. rewrite !close1_refl. reflexivity. Qed.

(** ** Rmod *)
Lemma Rmod_range x L : 0 < L -> 0 <= Rmod x L < L.
Proof.
  intros HL. unfold Rmod, Rfloor. destruct (base_Int_part (x / L)) as [H1 H2].
  apply (Rmult_le_compat_l L) in H1; [|lra]. replace (L * (x / L)) with x in H1 by (field; lra).
  assert (H3 : L * (x / L - IZR (Int_part (x / L))) < L * 1) by (apply Rmult_lt_compat_l; lra).
  replace (L * (x / L - IZR (Int_part (x / L)))) with (x - L * IZR (Int_part (x / L))) in H3 by (field; lra).
  lra.
Qed.
Lemma Rmod_eq x L : 0 < L -> exists k, Rmod x L = x - IZR k * L.
Proof. intros _. exists (Rfloor (x / L)). unfold Rmod. ring. Qed.
Lemma Rmod_unique x L k t : 0 <= t < L -> t = x - IZR k * L -> Rmod x L = t.
Proof.
  intros Ht E. assert (HL : 0 < L) by lra.
  destruct (Rmod_eq x L HL) as [k' E']. pose proof (Rmod_range x L HL) as Hr.
  assert (K : (k = k')%Z).
  { assert (A : IZR (k' - k) * L = t - Rmod x L) by (rewrite minus_IZR; rewrite E, E'; ring).
    assert (B : -1 < IZR (k' - k) < 1).
    { split; apply Rmult_lt_reg_r with L; lra. }
    destruct B as [B1 B2]. apply (lt_IZR (-1)) in B1. apply (lt_IZR _ 1) in B2. lia. }
  subst k'. congruence.
Qed.
Lemma Rmod_id t L : 0 <= t < L -> Rmod t L = t.
Proof. intros H. apply Rmod_unique with (k := 0%Z); [assumption|simpl; ring]. Qed.
Lemma Rmod_shift x k L : 0 < L -> Rmod (x + IZR k * L) L = Rmod x L.
Proof.
  intros HL. destruct (Rmod_eq x L HL) as [k' E]. apply Rmod_unique with (k := (k' + k)%Z).
  - apply Rmod_range. exact HL.
  - rewrite E, plus_IZR. ring.
Qed.

(** ** Sorting *)
Lemma Rinsert_perm x l : Permutation (Rinsert x l) (x :: l).
Proof.
  induction l as [|y l IH]; simpl; [reflexivity|]. destruct (Rleb x y); [reflexivity|].
  rewrite IH. apply perm_swap.
Qed.
Lemma Rsorted_perm l : Permutation (Rsorted_list l) l.
Proof. induction l as [|x l IH]; simpl; [constructor|]. rewrite Rinsert_perm. constructor. exact IH. Qed.
Inductive srt : list R -> Prop :=
  | srt_nil : srt []
  | srt_cons x l : (forall y, In y l -> x <= y) -> srt l -> srt (x :: l).
Lemma srt_sorted l : srt l -> sorted l.
Proof.
  induction 1 as [|x l Hx _ IH]; intros i j [Hij Hj]; simpl in *; [lia|].
  destruct j as [|j]; [replace i with 0%nat by lia; lra|]. destruct i as [|i].
  - apply Hx. apply nth_In. lia.
  - apply IH. lia.
Qed.
Lemma Rinsert_srt x l : srt l -> srt (Rinsert x l).
Proof.
  induction 1 as [|y l Hy Hl IH]; simpl; [repeat constructor; simpl; tauto|].
  destruct (Rleb x y) eqn:E.
  - apply Rleb_true in E. constructor; [|constructor; assumption].
    intros z [<-|Hz]; [assumption|]. specialize (Hy z Hz). lra.
  - apply Rleb_false in E. constructor; [|assumption].
    intros z Hz. apply (Permutation_in _ (Rinsert_perm x l)) in Hz. destruct Hz as [<-|Hz]; [lra|]. auto.
Qed.
Lemma Rsorted_srt l : srt (Rsorted_list l).
Proof. induction l; simpl; [constructor|]. apply Rinsert_srt. assumption. Qed.
Lemma Rsorted_sorted l : sorted (Rsorted_list l).
Proof. apply srt_sorted, Rsorted_srt. Qed.

(** ** rshift *)
Lemma rshift_ok p q e s : endpoint p = Ok e -> starting_point q = Ok s -> points_close e s = true ->
  0 <= plen p -> 0 <= plen q ->
  exists r, rshift p q = Ok r /\ plen r = plen p + plen q /\
    (forall t, 0 <= t <= plen p -> pfun r t = pfun p t) /\
    (forall t, 0 < t <= plen q -> pfun r (plen p + t) = pfun q t) /\
    (forall t, t < 0 \/ plen p + plen q < t -> pfun r t = Err AssertionError) /\
    pbps r = (pbps p ++ [plen p] ++ pbps q)%list /\ pname r = pname p.
Proof.
  intros He Hs Hc Hp Hq. unfold rshift. rewrite He, Hs. cbn [bind]. rewrite Hc. cbn [py_assert bind].
  eexists. split; [reflexivity|]. cbn [plen pfun pbps pname]. split; [reflexivity|].
  split; [|split; [|split; [|split; reflexivity]]].
  - intros t Ht. rewrite (proj2 (Rleb_true 0 t)), (proj2 (Rleb_true t (plen p + plen q))) by lra.
    cbn [andb py_assert bind]. rewrite (proj2 (Rleb_true t (plen p))) by lra. reflexivity.
  - intros t Ht. rewrite (proj2 (Rleb_true 0 (plen p + t))), (proj2 (Rleb_true (plen p + t) (plen p + plen q))) by lra.
    cbn [andb py_assert bind]. rewrite (proj2 (Rleb_false (plen p + t) (plen p))) by lra. f_equal. ring.
  - intros t [Ht|Ht].
    + rewrite (proj2 (Rleb_false 0 t)) by lra. reflexivity.
    + rewrite (proj2 (Rleb_false t (plen p + plen q))) by lra. rewrite andb_false_r. reflexivity.
Qed.

(** ** line *)
Lemma norm_vsub_sym a b : norm (vsub a b) = norm (vsub b a).
Proof. apply norm_eq. unfold dot, vsub; simpl. ring. Qed.
Lemma dist_pos a b : a <> b -> 0 < norm (vsub a b).
Proof.
  intros H. destruct (norm_nonneg (vsub a b)) as [K|K]; [exact K|]. exfalso. apply H. symmetry in K.
  apply norm_zero in K. unfold vsub, vzero in K. injection K as K1 K2 K3. apply vec_eq; lra.
Qed.
Definition on_line (a b : vec3) (t : R) : vec3 :=
  vadd (vscale (1 - t / norm (vsub a b)) a) (vscale (t / norm (vsub a b)) b).
Lemma line_eval a b t : a <> b -> pfun (line a b) t = Ok (on_line a b t).
Proof.
  intros H. apply dist_pos in H. unfold line; simpl. rewrite Rdiv_py_ok by lra. reflexivity.
Qed.
Lemma on_line_0 a b : a <> b -> on_line a b 0 = a.
Proof. intros H. apply dist_pos in H. unfold on_line. apply vec_eq; simpl; field; lra. Qed.
Lemma on_line_end a b : a <> b -> on_line a b (norm (vsub a b)) = b.
Proof. intros H. apply dist_pos in H. unfold on_line. apply vec_eq; simpl; field; lra. Qed.
Lemma on_line_dist a b s t : a <> b -> dist3 (on_line a b s) (on_line a b t) = Rabs (s - t).
Proof.
  intros H. apply dist_pos in H. unfold dist3.
  replace (vsub (on_line a b s) (on_line a b t)) with (vscale ((t - s) / norm (vsub a b)) (vsub a b))
    by (unfold on_line; apply vec_eq; simpl; field; lra).
  rewrite norm_scale. unfold Rdiv. rewrite Rabs_mult, (Rabs_right (/ _)).
  - rewrite Rmult_assoc, Rinv_l, Rmult_1_r by lra. apply Rabs_minus_sym.
  - left. apply Rinv_0_lt_compat. exact H.
Qed.

(** Extending a path by a straight line. *)
Lemma line_to_ok p e b : endpoint p = Ok e -> e <> b -> 0 <= plen p ->
  exists r, line_to b p = Ok r /\ plen r = plen p + norm (vsub e b) /\
    (forall t, 0 <= t <= plen p -> pfun r t = pfun p t) /\
    (forall t, 0 <= t <= norm (vsub e b) -> pfun r (plen p + t) = Ok (on_line e b t)) /\
    endpoint r = Ok b /\
    pbps r = (pbps p ++ [plen p])%list /\ pname r = pname p.
Proof.
  intros He Hne Hp. pose proof (dist_pos _ _ Hne) as Hd.
  destruct (rshift_ok p (line e b) e e He) as (r & Er & Lr & F1 & F2 & F3 & Bp & Nm).
  - unfold starting_point. rewrite line_eval, on_line_0 by assumption. reflexivity.
  - apply points_close_refl.
  - exact Hp.
  - simpl. lra.
  - exists r. unfold line_to. rewrite He. cbn [bind]. split; [exact Er|].
    change (plen (line e b)) with (norm (vsub e b)) in *. split; [exact Lr|]. split; [exact F1|].
    assert (F4 : forall t, 0 <= t <= norm (vsub e b) -> pfun r (plen p + t) = Ok (on_line e b t)).
    { intros t Ht. destruct (Req_dec t 0) as [->|Hn].
      - rewrite Rplus_0_r, F1, on_line_0 by (assumption || lra). exact He.
      - rewrite F2, line_eval by (assumption || lra). reflexivity. }
    split; [exact F4|]. split; [|split; [rewrite Bp; reflexivity|exact Nm]].
    unfold endpoint. rewrite Lr, F4, on_line_end by (assumption || lra). reflexivity.
Qed.

(** ** cut *)
Lemma cut_rejoin p l e : 0 <= l <= plen p -> pfun p l = Ok e ->
  exists r, rshift (fst (cut l p)) (snd (cut l p)) = Ok r /\ plen r = plen p /\
    forall t, 0 <= t <= plen p -> pfun r t = pfun p t.
Proof.
  intros Hl He.
  destruct (rshift_ok (fst (cut l p)) (snd (cut l p)) e e) as (r & Er & Lr & F1 & F2 & _); simpl.
  - exact He.
  - unfold starting_point; simpl. rewrite Rplus_0_l. exact He.
  - apply points_close_refl.
  - lra.
  - lra.
  - exists r. split; [exact Er|]. simpl in *. split; [lra|]. intros t Ht.
    destruct (Rle_dec t l) as [K|K]; [apply F1; lra|].
    replace t with (l + (t - l)) at 1 by ring. rewrite F2 by lra. f_equal. ring.
Qed.

(** ** atan2 *)
Lemma sqrt_sum_pos x y : x <> 0 \/ y <> 0 -> 0 < sqrt (x * x + y * y).
Proof. intros H. apply sqrt_lt_R0. destruct H; nra. Qed.

Lemma atan2_polar x y : let r := sqrt (x * x + y * y) in
  r * cos (atan2 y x) = x /\ r * sin (atan2 y x) = y.
Proof.
  intros r. unfold atan2.
  assert (Hdiv : x <> 0 -> sqrt (1 + Rsqr (y / x)) = r / Rabs x).
  { intros Hx. unfold r. rewrite <- (sqrt_Rsqr_abs x), <- sqrt_div_alt.
    - f_equal. unfold Rsqr. field. exact Hx.
    - unfold Rsqr. nra. }
  assert (Hr : x <> 0 -> 0 < r) by (intros Hx; apply sqrt_sum_pos; auto).
  destruct (Rlt_dec 0 x) as [Hx|Hx].
  - rewrite cos_atan, sin_atan, Hdiv by lra. specialize (Hr ltac:(lra)).
    rewrite Rabs_right by lra. split; field; lra.
  - destruct (Rlt_dec x 0) as [Hx'|Hx'].
    + specialize (Hr ltac:(lra)).
      assert (C : cos (atan (y / x)) = - x / r /\ sin (atan (y / x)) = - y / r).
      { rewrite cos_atan, sin_atan, Hdiv by lra. rewrite Rabs_left by lra. split; field; lra. }
      destruct C as [C S]. destruct (Rle_dec 0 y).
      * rewrite neg_cos, neg_sin, C, S. split; field; lra.
      * rewrite cos_minus, sin_minus, cos_PI, sin_PI, C, S. split; field; lra.
    + assert (x = 0) by lra. subst x. unfold r. 
      replace (0 * 0 + y * y) with (Rsqr y) by (unfold Rsqr; ring). rewrite sqrt_Rsqr_abs.
      destruct (Rlt_dec 0 y).
      * rewrite cos_PI2, sin_PI2, Rabs_right by lra. split; ring.
      * destruct (Rlt_dec y 0).
        -- rewrite cos_neg, sin_neg, cos_PI2, sin_PI2, Rabs_left by lra. split; ring.
        -- replace y with 0 by lra. rewrite Rabs_R0. split; ring.
Qed.
Lemma atan2_upper x y : 0 < y -> 0 < atan2 y x < PI.
Proof.
  intros Hy. unfold atan2. pose proof PI_RGT_0 as HP.
  destruct (Rlt_dec 0 x) as [Hx|Hx].
  - assert (0 < y / x) by (apply Rdiv_lt_0_compat; assumption).
    pose proof (atan_bound (y / x)). split; [|lra]. rewrite <- atan_0. apply atan_increasing. assumption.
  - destruct (Rlt_dec x 0) as [Hx'|Hx'].
    + destruct (Rle_dec 0 y); [|lra]. pose proof (atan_bound (y / x)).
      assert (y / x < 0). { unfold Rdiv. assert (/ x < 0) by (apply Rinv_lt_0_compat; assumption). nra. }
      assert (atan (y / x) < atan 0) by (apply atan_increasing; assumption). rewrite atan_0 in *. lra.
    + destruct (Rlt_dec 0 y); lra.
Qed.

(** ** Curves with unit speed *)

Definition circle_at (c x y : vec3) (r w t : R) : vec3 :=
  vadd (vadd c (vscale (r * cos (w * t)) x)) (vscale (r * sin (w * t)) y).
Definition frame (x y : vec3) : Prop := dot x x = 1 /\ dot y y = 1 /\ dot x y = 0.

Lemma circle_at_radius c x y r w t : frame x y -> 0 <= r -> dist3 (circle_at c x y r w t) c = r.
Proof.
  intros (X & Y & XY) Hr. unfold dist3. apply norm_unique; [exact Hr|].
  replace (vsub (circle_at c x y r w t) c) with (vadd (vscale (r * cos (w * t)) x) (vscale (r * sin (w * t)) y))
    by (unfold circle_at; vec_ring).
  set (C := cos (w * t)). set (S := sin (w * t)).
  replace (dot (vadd (vscale (r * C) x) (vscale (r * S) y)) (vadd (vscale (r * C) x) (vscale (r * S) y)))
    with (r * r * (C * C * dot x x + S * S * dot y y + 2 * (C * S) * dot x y)) by (unfold dot; simpl; ring).
  rewrite X, Y, XY. replace (C * C * 1 + S * S * 1 + 2 * (C * S) * 0) with (S * S + C * C) by ring.
  unfold S, C. rewrite sin2_cos2'. ring.
Qed.
Lemma circle_at_speed c x y r w : frame x y -> r * w = 1 \/ r * w = -1 ->
  exists d, moves_with (circle_at c x y r w) d /\ forall t, norm (d t) = 1.
Proof.
  intros (X & Y & XY) Hw.
  exists (fun t => vadd (vscale (- (r * w) * sin (w * t)) x) (vscale (r * w * cos (w * t)) y)). split.
  - intros t. unfold circle_at; simpl. split; [|split]; auto_derive; try exact I; ring.
  - intros t. apply norm_unique; [lra|]. set (C := cos (w * t)). set (S := sin (w * t)). set (k := r * w).
    replace (dot _ _) with (k * k * (S * S * dot x x + C * C * dot y y - 2 * (C * S) * dot x y))
      by (unfold dot; simpl; ring).
    rewrite X, Y, XY. replace (S * S * 1 + C * C * 1 - 2 * (C * S) * 0) with (S * S + C * C) by ring.
    unfold S, C. rewrite sin2_cos2'. unfold k. destruct Hw as [-> | ->]; ring.
Qed.

(** What [arc] computes. *)
Record arc_frame (center start end_ x y : vec3) (radius theta : R) : Prop := {
  af_frame : frame x y;
  af_radius : radius = dist3 start center;
  af_pos : 0 < radius;
  af_start : start = vadd center (vscale radius x);
  af_theta : 0 < theta < PI;
  af_end : vsub end_ center = vadd (vscale (dist3 end_ center * cos theta) x) (vscale (dist3 end_ center * sin theta) y) }.

Lemma vscale_div_scale v k : vscale_div v k = vscale (/ k) v.
Proof. unfold vscale_div. apply vec_eq; simpl; unfold Rdiv; ring. Qed.
Lemma normalised_unit v : norm v <> 0 -> dot (vscale_div v (norm v)) (vscale_div v (norm v)) = 1.
Proof.
  intros H. rewrite vscale_div_scale. replace (dot (vscale (/ norm v) v) (vscale (/ norm v) v))
    with (/ norm v * / norm v * dot v v) by (unfold dot; simpl; ring).
  rewrite <- norm_sq. field. exact H.
Qed.
Lemma dot_scale_r k a b : dot a (vscale k b) = k * dot a b.
Proof. unfold dot; simpl; ring. Qed.
Lemma dot_sub_r a b c : dot a (vsub b c) = dot a b - dot a c.
Proof. unfold dot; simpl; ring. Qed.

Lemma arc_ok center start end_ reverse :
  cross (vsub start center) (vsub end_ center) <> vzero ->
  exists x y radius theta p, arc_frame center start end_ x y radius theta /\
    arc center start end_ reverse = Ok p /\
    plen p = (if reverse then (2 * PI - theta) * radius else theta * radius) /\
    pbps p = [] /\
    (forall t, pfun p t = Ok (circle_at center x y radius (if reverse then - / radius else / radius) t)).
Proof.
  intros Hc. set (x0 := vsub start center). set (v := vsub end_ center).
  assert (Hx0 : norm x0 <> 0).
  { intros E. apply norm_zero in E. apply Hc. fold x0. rewrite E. unfold cross, vzero; simpl. f_equal; ring. }
  set (x := vscale_div x0 (norm x0)). assert (Hxx : dot x x = 1) by (apply normalised_unit; exact Hx0).
  set (y0 := vsub v (vscale (dot v x) x)).
  assert (Hx0x : x0 = vscale (norm x0) x).
  { unfold x. rewrite vscale_div_scale. apply vec_eq; simpl; field; exact Hx0. }
  assert (Hy0 : norm y0 <> 0).
  { intros E. apply norm_zero in E. apply Hc. fold x0 v.
    assert (V : v = vscale (dot v x) x).
    { unfold y0, vzero, vsub in E. injection E as E1 E2 E3. apply vec_eq; simpl in *; lra. }
    rewrite V, Hx0x. unfold cross, vzero; simpl. f_equal; ring. }
  set (y := vscale_div y0 (norm y0)). assert (Hyy : dot y y = 1) by (apply normalised_unit; exact Hy0).
  assert (Hxy0 : dot x y0 = 0).
  { unfold y0. rewrite dot_sub_r, dot_scale_r, Hxx, (dot_comm x v). ring. }
  assert (Hxy : dot x y = 0).
  { unfold y. rewrite vscale_div_scale, dot_scale_r, Hxy0. ring. }
  assert (Hvy : dot v y = norm y0).
  { unfold y. rewrite vscale_div_scale, dot_scale_r.
    assert (E : dot v y0 = norm y0 * norm y0).
    { rewrite norm_sq. unfold y0 at 3. rewrite dot_sub_r, dot_scale_r, (dot_comm y0 x), Hxy0.
      rewrite (dot_comm y0 v). ring. }
    rewrite E. field. exact Hy0. }
  assert (Hy0p : 0 < norm y0) by (pose proof (norm_nonneg y0); lra).
  set (theta := atan2 (dot v y) (dot v x)).
  assert (Hth : 0 < theta < PI) by (apply atan2_upper; rewrite Hvy; exact Hy0p).
  assert (Hv : v = vadd (vscale (dot v x) x) (vscale (dot v y) y)).
  { rewrite Hvy. replace (vscale (norm y0) y) with y0.
    - unfold y0. generalize (dot v x). intros k. unfold vadd, vsub, vscale; simpl. apply vec_eq; simpl; ring.
    - unfold y. rewrite vscale_div_scale. revert Hy0. generalize (norm y0). generalize y0. intros [a b c] k Hk.
      unfold vscale; cbn [vx vy vz]. apply vec_eq; cbn [vx vy vz]; field; exact Hk. }
  assert (Hnv : norm v = sqrt (dot v x * dot v x + dot v y * dot v y)).
  { rewrite norm_dot. f_equal. rewrite Hv at 1 2.
    replace (dot (vadd (vscale (dot v x) x) (vscale (dot v y) y)) (vadd (vscale (dot v x) x) (vscale (dot v y) y)))
      with (dot v x * dot v x * dot x x + dot v y * dot v y * dot y y + 2 * (dot v x * dot v y) * dot x y)
      by (unfold dot; simpl; ring).
    rewrite Hxx, Hyy, Hxy. ring. }
  destruct (atan2_polar (dot v x) (dot v y)) as [P1 P2]. fold theta in P1, P2. rewrite <- Hnv in P1, P2.
  assert (Hr : 0 < norm x0) by (pose proof (norm_nonneg x0); lra).
  exists x, y, (norm x0), theta. eexists. split; [|split].
  - constructor.
    + repeat split; assumption.
    + reflexivity.
    + exact Hr.
    + rewrite <- Hx0x. unfold x0. apply vec_eq; simpl; ring.
    + exact Hth.
    + fold v. unfold dist3. fold v. rewrite P1, P2. exact Hv.
  - unfold arc. fold x0. rewrite Rdiv_py_ok by exact Hx0. cbn [bind]. fold v. fold x. fold y0.
    rewrite Rdiv_py_ok by exact Hy0. cbn [bind]. fold y. fold theta. reflexivity.
  - cbn [plen pbps pfun].
    assert (Hlen : Rabs ((if reverse then theta - 2 * PI else theta) * norm x0) =
              (if reverse then (2 * PI - theta) * norm x0 else theta * norm x0)).
    { destruct reverse; [rewrite Rabs_left|rewrite Rabs_right]; nra. }
    rewrite Hlen. split; [reflexivity|]. split; [reflexivity|]. intros t.
    rewrite Rdiv_py_ok by (destruct reverse; nra). cbn [bind]. f_equal. unfold circle_at.
    replace (t / (if reverse then (2 * PI - theta) * norm x0 else theta * norm x0) *
       (if reverse then theta - 2 * PI else theta)) with ((if reverse then - / norm x0 else / norm x0) * t).
    + reflexivity.
    + destruct reverse; field; split; lra.
Qed.

Lemma arc_points center start end_ x y radius theta (reverse : bool) :
  arc_frame center start end_ x y radius theta ->
  let w := if reverse then - / radius else / radius in
  let L := if reverse then (2 * PI - theta) * radius else theta * radius in
  circle_at center x y radius w 0 = start /\
  (dist3 end_ center = dist3 start center -> circle_at center x y radius w L = end_).
Proof.
  intros [(Fx & Fy & Fxy) Fr Fp Fs Ft Fe] w L. split.
  - unfold circle_at. rewrite Rmult_0_r, cos_0, sin_0. rewrite Fs. apply vec_eq; simpl; ring.
  - intros E. rewrite E, <- Fr in Fe.
    assert (A : cos (w * L) = cos theta /\ sin (w * L) = sin theta).
    { unfold w, L. destruct reverse.
      - replace (- / radius * ((2 * PI - theta) * radius)) with (- (2 * PI - theta)) by (field; lra).
        rewrite cos_neg, sin_neg. rewrite cos_minus, sin_minus, cos_2PI, sin_2PI. split; ring.
      - replace (/ radius * (theta * radius)) with theta by (field; lra). auto. }
    unfold circle_at. destruct A as [-> ->].
    transitivity (vadd center (vsub end_ center)); [rewrite Fe; vec_ring|vec_ring].
Qed.
