(** The force in a three-dimensional field is smooth along every curve that meets no charge. *)
From Coq Require Import Reals Lra Lia Psatz.
From Coquelicot Require Import Coquelicot.
From Verif Require Import Base BaseFacts Vec GeomModel OutwardFacts FieldModel FieldFacts TracingModel TracingFacts Field3DFacts SeriesFacts ConvSpec ConvFacts ConvStep ExprSpec ExprFacts ExprSmooth.
Local Open Scope R_scope.

Lemma norm_triangle a b : norm (vadd a b) <= norm a + norm b.
Proof.
  pose proof (norm_nonneg a) as Na. pose proof (norm_nonneg b) as Nb. apply Rsqr_incr_0_var; [|lra]. unfold Rsqr. rewrite norm_sq.
  pose proof (norm_sq a) as Ea. pose proof (norm_sq b) as Eb.
  assert (CS : dot a b <= norm a * norm b).
  { destruct (Rle_dec (dot a b) 0) as [L|G]; [pose proof (Rmult_le_pos _ _ Na Nb); lra|]. apply Rsqr_incr_0_var; [|apply Rmult_le_pos; assumption]. unfold Rsqr.
    replace (norm a * norm b * (norm a * norm b)) with (norm a * norm a * (norm b * norm b)) by ring. rewrite Ea, Eb.
    pose proof (dot_self_nonneg (cross a b)) as L. unfold dot, cross in *. cbn in *. nra. }
  unfold dot, vadd in *. cbn in *. nra.
Qed.
Lemma Rabs_sq x : Rabs x * Rabs x = x * x.
Proof. unfold Rabs. destruct (Rcase_abs x); ring. Qed.
Definition shifted (x : R) (i : nat) : expr := EAdd (EConst x) (EMul (EConst (-1)) (EVar i)).
Definition dist_sq (q : vec3) : expr :=
  EAdd (EAdd (EMul (shifted (vx q) 0) (shifted (vx q) 0)) (EMul (shifted (vy q) 1) (shifted (vy q) 1))) (EMul (shifted (vz q) 2) (shifted (vz q) 2)).
Definition coord (i : nat) (q : vec3) : R := match i with 0%nat => vx q | 1%nat => vy q | _ => vz q end.
Definition point_expr (i : nat) (q : vec3) : expr := EMul (EConst (/ (4 * PI))) (EMul (shifted (coord i q) i) (EPow (dist_sq q) 3)).
Fixpoint sum_expr (l : list (R * expr)) : expr := match l with [] => EConst 0 | (x, e) :: l => EAdd (EMul (EConst x) e) (sum_expr l) end.
Definition charges_expr (i : nat) (c : charges) : expr :=
  EMul (EConst (-1)) (sum_expr (map (fun x => (fst x, sum_expr (map (fun jp => (fst jp, point_expr i (snd jp))) (snd x)))) (q_items c))).
Definition times (k : R) (e : expr) : expr := EMul (EConst k) e.
Definition cross_expr (i j : nat) (hi hj : expr) : expr := EAdd (EMul (EVar i) (times MU_0 hj)) (times (-1) (EMul (EVar j) (times MU_0 hi))).
Definition force_x (f : bem) : expr := EAdd (charges_expr 0 (b_elec f)) (cross_expr 4 5 (charges_expr 1 (b_mag f)) (charges_expr 2 (b_mag f))).
Definition force_y (f : bem) : expr := EAdd (charges_expr 1 (b_elec f)) (cross_expr 5 3 (charges_expr 2 (b_mag f)) (charges_expr 0 (b_mag f))).
Definition force_z (f : bem) : expr := EAdd (charges_expr 2 (b_elec f)) (cross_expr 3 4 (charges_expr 0 (b_mag f)) (charges_expr 1 (b_mag f))).

Lemma eval_dist_sq q s : eval (dist_sq q) s = dot (vsub q (s_pos s)) (vsub q (s_pos s)).
Proof. unfold dot. cbn. ring. Qed.
Lemma eval_sum l s : eval (sum_expr l) s = Rsum (map (fun xe => fst xe * eval (snd xe) s) l).
Proof. induction l as [|[x e] l IH]; [reflexivity|]. cbn [sum_expr eval map Rsum fst snd]. rewrite IH. reflexivity. Qed.
Definition clear_of (r : R) (c : charges) (p : vec3) : Prop := forall x jp, In x (q_items c) -> In jp (snd x) -> r <= norm (vsub (snd jp) p).
Definition kernel (i : nat) (p q : vec3) : R := (coord i q - coord i p) / (4 * PI * norm (vsub q p) ^ 3).
Lemma eval_point i q s : (i < 3)%nat -> 0 < norm (vsub q (s_pos s)) -> eval (point_expr i q) s = kernel i (s_pos s) q.
Proof.
  intros Hi P. unfold point_expr, kernel. cbn [eval]. rewrite eval_dist_sq, <- norm_dot. pose proof PI_RGT_0.
  assert (E : eval (shifted (coord i q) i) s = coord i q - coord i (s_pos s)).
  { destruct i as [|[|[|i]]]; [| | |lia]; cbn; ring. }
  rewrite E. field. split; lra.
Qed.
Lemma eval_charges i c s : (i < 3)%nat -> (exists r, 0 < r /\ clear_of r c (s_pos s)) -> eval (charges_expr i c) s = - evaluate (kernel i (s_pos s)) c.
Proof.
  intros Hi (r & Hr & Hc). unfold charges_expr. cbn [eval]. rewrite eval_sum, map_map. cbn [fst snd].
  replace (- evaluate (kernel i (s_pos s)) c) with (-1 * evaluate (kernel i (s_pos s)) c) by ring. f_equal. unfold evaluate. apply Rsum_ext. intros x Hx. f_equal.
  rewrite eval_sum, map_map. cbn [fst snd]. unfold source_sum. apply Rsum_ext. intros jp Hjp. f_equal. apply eval_point; [exact Hi|]. specialize (Hc x jp Hx Hjp). lra.
Qed.
Lemma field_exprs c s : (exists r, 0 < r /\ clear_of r c (s_pos s)) -> field_3d (s_pos s) c = V3 (eval (charges_expr 0 c) s) (eval (charges_expr 1 c) s) (eval (charges_expr 2 c) s).
Proof. intros H. rewrite !eval_charges by (auto; lia). reflexivity. Qed.
Lemma force_exprs f s : b_class f = Field3D_BEM -> (exists r, 0 < r /\ clear_of r (b_elec f) (s_pos s)) -> (exists r, 0 < r /\ clear_of r (b_mag f) (s_pos s)) ->
  tracer_field f s = Ok (V3 (eval (force_x f) s) (eval (force_y f) s) (eval (force_z f) s)).
Proof.
  intros C He Hm. unfold tracer_field. rewrite C. unfold field_3d_traceable. rewrite (field_exprs _ _ He), (field_exprs _ _ Hm). f_equal.
  unfold force_x, force_y, force_z, cross_expr, times, combine_elec_magnetic_field. cbn [eval].
  generalize (eval (charges_expr 0 (b_elec f)) s) (eval (charges_expr 1 (b_elec f)) s) (eval (charges_expr 2 (b_elec f)) s).
  generalize (eval (charges_expr 0 (b_mag f)) s) (eval (charges_expr 1 (b_mag f)) s) (eval (charges_expr 2 (b_mag f)) s). intros m0 m1 m2 e0 e1 e2.
  generalize MU_0. intros mu. apply vec_eq; cbn; ring.
Qed.
Lemma regular_sum c l s : (forall x e, In (x, e) l -> regular c e s) -> regular c (sum_expr l) s.
Proof. induction l as [|[x e] l IH]; intros H; cbn; [exact I|]. split; [split; [exact I|apply (H x); left; reflexivity]|apply IH; intros; eapply H; right; eassumption]. Qed.
Lemma regular_charges r i c s : 0 < r -> clear_of r c (s_pos s) -> regular (r * r) (charges_expr i c) s.
Proof.
  intros Hr H. unfold charges_expr. split; [exact I|]. apply regular_sum. intros x e Hx. apply in_map_iff in Hx. destruct Hx as (item & E & Hx). injection E as <- <-.
  apply regular_sum. intros y e Hy. apply in_map_iff in Hy. destruct Hy as (jp & E & Hy). injection E as <- <-.
  split; [exact I|]. split; [cbn; tauto|]. cbn [regular]. split; [|cbn; tauto]. rewrite eval_dist_sq, <- norm_sq. specialize (H item jp Hx Hy). apply Rmult_le_compat; lra.
Qed.
Lemma near_clear r c p p' : clear_of (2 * r) c p -> norm (vsub p' p) <= r -> clear_of r c p'.
Proof.
  intros H D x jp Hx Hjp. specialize (H x jp Hx Hjp). pose proof (norm_triangle (vsub (snd jp) p') (vsub p' p)) as N.
  replace (vadd (vsub (snd jp) p') (vsub p' p)) with (vsub (snd jp) p) in N by vec_ring. lra.
Qed.
Lemma norm_le_sum v : norm v <= Rabs (vx v) + Rabs (vy v) + Rabs (vz v).
Proof.
  apply Rsqr_incr_0_var; [|pose proof (Rabs_pos (vx v)); pose proof (Rabs_pos (vy v)); pose proof (Rabs_pos (vz v)); lra].
  unfold Rsqr at 1. rewrite norm_sq. unfold dot, Rsqr. rewrite <- (Rabs_sq (vx v)), <- (Rabs_sq (vy v)), <- (Rabs_sq (vz v)).
  pose proof (Rabs_pos (vx v)); pose proof (Rabs_pos (vy v)); pose proof (Rabs_pos (vz v)). nra.
Qed.
Lemma force_near_bem f u T r : b_class f = Field3D_BEM -> 0 < r -> (forall t, 0 <= t <= T -> clear_of (2 * r) (b_elec f) (s_pos (u t)) /\ clear_of (2 * r) (b_mag f) (s_pos (u t))) ->
  force_near (tracer_field f) u T r (r * r) (force_x f) (force_y f) (force_z f).
Proof.
  intros C Hr H t d Ht Hd. destruct (H t Ht) as [He Hm]. set (s := sadd (u t) d).
  assert (N : norm (vsub (s_pos s) (s_pos (u t))) <= r).
  { replace (vsub (s_pos s) (s_pos (u t))) with (s_pos d) by (unfold s; destruct (u t) as [[? ? ?] ?], d as [[? ? ?] ?]; apply vec_eq; cbn; ring).
    eapply Rle_trans; [apply norm_le_sum|]. unfold snorm in Hd. pose proof (Rabs_pos (vx (s_vel d))). pose proof (Rabs_pos (vy (s_vel d))). pose proof (Rabs_pos (vz (s_vel d))). lra. }
  pose proof (near_clear _ _ _ _ He N) as Ce. pose proof (near_clear _ _ _ _ Hm N) as Cm.
  split; [apply force_exprs; [exact C|exists r; auto|exists r; auto]|].
  unfold force_x, force_y, force_z, cross_expr, times. cbn [regular]. pose proof (fun i => regular_charges r i _ _ Hr Ce) as Re. pose proof (fun i => regular_charges r i _ _ Hr Cm) as Rm.
  repeat split; try exact I; try apply Re; try apply Rm.
Qed.
(** A curve without charges on it keeps some distance from all of them. *)
Lemma keeps_distance (u : R -> state) T q : (forall t, 0 <= t <= T -> exists g, has_derivative u t g) -> (forall t, 0 <= t <= T -> q <> s_pos (u t)) ->
  exists r, 0 < r /\ forall t, 0 <= t <= T -> r <= norm (vsub q (s_pos (u t))).
Proof.
  intros Hu Hq. set (g := fun t => dot (vsub q (s_pos (u t))) (vsub q (s_pos (u t)))).
  assert (Pos : forall t, 0 <= t <= T -> 0 < g t).
  { intros t Ht. unfold g. rewrite <- norm_sq. assert (norm (vsub q (s_pos (u t))) <> 0). { intros E. apply norm_zero in E. apply (Hq t Ht). destruct q, (s_pos (u t)). injection E as E1 E2 E3. f_equal; lra. }
    pose proof (norm_nonneg (vsub q (s_pos (u t)))). nra. }
  assert (Dg : forall t, 0 <= t <= T -> ex_derive g t).
  { intros t Ht. destruct (Hu t Ht) as (d & ((A & B & C) & _)). unfold g, dot, vsub; cbn.
    assert (Q : forall (h : R -> R) x l, is_derive h t l -> ex_derive (fun t => (x - h t) * (x - h t)) t).
    { intros h x l Hh. eexists. apply (is_derive_mult (fun t => x - h t) (fun t => x - h t)); [| |intros; apply Rmult_comm]; (apply (is_derive_minus (V := R_NormedModule)); [apply is_derive_const|exact Hh]). }
    apply (ex_derive_plus (V := R_NormedModule)); [apply (ex_derive_plus (V := R_NormedModule))|]; eapply Q; eassumption. }
  destruct (bounded_continuity (V := R_NormedModule) (fun t => / g t) 0 T) as [B HB].
  { intros t Ht. apply (ex_derive_continuous (fun t => / g t) t). destruct (Dg t Ht) as [d Hd]. specialize (Pos t Ht). eexists. apply (is_derive_inv g); [exact Hd|lra]. }
  destruct (Rle_dec 0 T) as [HT|NT]; [|exists 1; split; [lra|]; intros; lra].
  assert (BP : 0 < B). { pose proof (HB 0 ltac:(lra)) as Q. eapply Rle_lt_trans; [apply (norm_ge_0 (V := R_NormedModule) (/ g 0))|exact Q]. }
  exists (sqrt (/ B)). split; [apply sqrt_lt_R0, Rinv_0_lt_compat; exact BP|]. intros t Ht. rewrite norm_dot. fold (g t). specialize (Pos t Ht). apply sqrt_le_1; [left; apply Rinv_0_lt_compat; exact BP|lra|].
  specialize (HB t Ht). assert (Q : / g t < B). { eapply Rle_lt_trans; [|exact HB]. apply Rle_abs. }
  rewrite <- (Rinv_inv (g t)). left. apply Rinv_lt_contravar; [|exact Q]. apply Rmult_lt_0_compat; [apply Rinv_0_lt_compat|]; lra.
Qed.
Lemma keeps_clear (u : R -> state) T c : (forall t, 0 <= t <= T -> exists g, has_derivative u t g) -> (forall t, 0 <= t <= T -> off_charges c (s_pos (u t))) ->
  exists r, 0 < r /\ forall t, 0 <= t <= T -> clear_of r c (s_pos (u t)).
Proof.
  intros Hu H. unfold clear_of.
  assert (Q : forall l : list vec3, (forall q, In q l -> forall t, 0 <= t <= T -> q <> s_pos (u t)) -> exists r, 0 < r /\ forall t, 0 <= t <= T -> forall q, In q l -> r <= norm (vsub q (s_pos (u t)))).
  { induction l as [|q l IH]; intros Hl; [exists 1; split; [lra|]; intros t _ q []|]. destruct IH as (r & Hr & IH); [intros; apply Hl; [right; assumption|assumption]|].
    destruct (keeps_distance u T q Hu (Hl q ltac:(left; reflexivity))) as (r' & Hr' & K). exists (Rmin r r'). split; [apply Rmin_glb_lt; assumption|].
    intros t Ht p [<-|Hp]; [eapply Rle_trans; [apply Rmin_r|apply K; exact Ht]|eapply Rle_trans; [apply Rmin_l|apply IH; assumption]]. }
  destruct (Q (map snd (flat_map snd (q_items c)))) as (r & Hr & K).
  - intros q Hq t Ht. apply in_map_iff in Hq. destruct Hq as (jp & <- & Hq). apply in_flat_map in Hq. destruct Hq as (x & Hx & Hj). exact (H t Ht x jp Hx Hj).
  - exists r. split; [exact Hr|]. intros t Ht x jp Hx Hj. apply K; [exact Ht|]. apply in_map. apply in_flat_map. exists x. auto.
Qed.
Theorem bem_smooth f u T : b_class f = Field3D_BEM -> 0 <= T -> solves (tracer_field f) T u ->
  (forall t, 0 <= t <= T -> off_charges (b_elec f) (s_pos (u t)) /\ off_charges (b_mag f) (s_pos (u t))) ->
  exists rho M D1 D2 D3 D4, smooth_along (tracer_field f) u T rho M D1 D2 D3 D4.
Proof.
  intros C HT S Off. assert (Hu : forall t, 0 <= t <= T -> exists g, has_derivative u t g) by (intros t Ht; destruct (S t Ht) as (g & _ & Hg); exists g; exact Hg).
  destruct (keeps_clear u T (b_elec f) Hu (fun t Ht => proj1 (Off t Ht))) as (r1 & P1 & K1). destruct (keeps_clear u T (b_mag f) Hu (fun t Ht => proj2 (Off t Ht))) as (r2 & P2 & K2).
  set (r := Rmin r1 r2 / 2). assert (Hr : 0 < r) by (unfold r; pose proof (Rmin_glb_lt _ _ _ P1 P2); lra).
  assert (N : force_near (tracer_field f) u T r (r * r) (force_x f) (force_y f) (force_z f)).
  { apply force_near_bem; [exact C|exact Hr|]. intros t Ht. unfold r. replace (2 * (Rmin r1 r2 / 2)) with (Rmin r1 r2) by field.
    split; intros x jp Hx Hj; [eapply Rle_trans; [apply Rmin_l|apply (K1 t Ht x jp Hx Hj)]|eapply Rle_trans; [apply Rmin_r|apply (K2 t Ht x jp Hx Hj)]]. }
  destruct (smooth_of_force (tracer_field f) u T r (r * r) _ _ _ ltac:(nra) Hr HT N S) as (M & SM). exists r, M. do 4 eexists. exact SM.
Qed.
