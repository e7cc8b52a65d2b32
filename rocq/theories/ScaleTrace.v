(** Traces of faster electrons in stronger fields. *)
From Coq Require Import Reals Lra.
From Verif Require Import Base BaseFacts Vec GeomModel FieldModel SeriesModel DispatchModel TracingModel MotionSolve.
Local Open Scope R_scope.

(** The same position, [c] times the velocity; the sample is reached [c] times earlier. *)
Definition faster (c : R) (s : state) : state := mkstate (s_pos s) (vscale c (s_vel s)).
Definition faster_sample (c : R) (x : R * state) : R * state := (fst x / c, faster c (snd x)).

Section Trace.
Context (c : R) (Hc : 0 < c) (field field' : field_fun) (Hf : forall s, field' (faster c s) = rmap (vscale (c * c)) (field s)).
Lemma faster_add y k : sadd (faster c y) (faster c k) = faster c (sadd y k).
Proof. unfold sadd, faster. cbn [s_pos s_vel]. f_equal. vec_ring. Qed.
Lemma faster_sscale k y : sscale k (faster c y) = faster c (sscale k y).
Proof. unfold sscale, faster. cbn [s_pos s_vel]. f_equal. vec_ring. Qed.
Lemma faster_accumulate l : forall ks y, accumulate (faster c y) l (map (faster c) ks) = faster c (accumulate y l ks).
Proof. unfold accumulate. induction l as [|x l IH]; intros [|k ks] y; cbn [map combine fold_left]; [reflexivity..|]. cbn [fst snd]. rewrite faster_sscale, faster_add. apply IH. Qed.
Lemma faster_zero : faster c szero = szero.
Proof. unfold faster, szero, vzero. cbn. unfold vscale; cbn. rewrite Rmult_0_r. reflexivity. Qed.
Lemma faster_k h y : produce_new_k field' (h / c) (faster c y) = rmap (faster c) (produce_new_k field h y).
Proof.
  unfold produce_new_k. rewrite Hf. destruct (field y) as [F|]; [|reflexivity]. cbn [rmap bind]. f_equal. unfold faster. cbn [s_pos s_vel]. f_equal; apply vec_eq; cbn -[EM]; field; lra.
Qed.
Lemma faster_stages h y bs : forall ks, stages field' (h / c) (faster c y) bs (map (faster c) ks) = rmap (map (faster c)) (stages field h y bs ks).
Proof.
  induction bs as [|b bs IH]; intros ks; [reflexivity|]. cbn [stages]. rewrite faster_accumulate, faster_k. destruct (produce_new_k field h (accumulate y b ks)) as [k|]; [|reflexivity]. cbn [rmap bind].
  rewrite <- IH, map_app. reflexivity.
Qed.
Lemma max_abs_scale k v : 0 <= k -> max_abs (vscale k v) = k * max_abs v.
Proof. intros Hk. unfold max_abs, vscale. cbn [vx vy vz]. rewrite !Rabs_mult, (Rabs_pos_eq k Hk), !RmaxRmult by exact Hk. reflexivity. Qed.
Lemma faster_error h ks : step_error (h / c) (map (faster c) ks) = step_error h ks.
Proof.
  unfold step_error. cbv zeta. rewrite <- faster_zero at 1 2. rewrite faster_accumulate. cbn [faster s_pos s_vel]. rewrite max_abs_scale by lra. field. lra.
Qed.
Lemma faster_next h hmax atol e : next_step (h / c) (hmax / c) atol e = next_step h hmax atol e / c.
Proof.
  assert (M : forall a b, Rmin (a / c) (b / c) = Rmin a b / c).
  { intros a b. unfold Rmin. assert (0 < / c) by (apply Rinv_0_lt_compat; exact Hc). destruct (Rle_dec a b), (Rle_dec (a / c) (b / c)); try reflexivity; exfalso.
    - apply n. apply Rmult_le_compat_r; lra.
    - apply n. apply Rmult_le_reg_r with (/ c); [assumption|exact r]. }
  unfold next_step. destruct (Req_EM_T e 0); [reflexivity|]. cbv zeta. destruct (Rlt_dec (atol / e) 0); [reflexivity|]. destruct (Req_EM_T (atol / e) 0).
  - rewrite <- M. f_equal. unfold Rdiv. ring.
  - rewrite <- M. f_equal. unfold Rdiv. ring.
Qed.
Lemma faster_loop fuel block b atol hmax : forall N t y h,
  trace_loop fuel block field' b atol (hmax / c) N (t / c) (faster c y) (h / c) = rmap (map (faster_sample c)) (trace_loop fuel block field b atol hmax N t y h).
Proof.
  induction fuel as [|fuel IH]; intros N t y h; [reflexivity|]. cbn [trace_loop]. change (s_pos (faster c y)) with (s_pos y).
  destruct (within b (s_pos y)); [|reflexivity]. unfold rk_stages. pose proof (faster_stages h y [[]; B2; B3; B4; B5; B6] []) as St. cbn [map] in St. rewrite St. destruct (stages field h y _ []) as [ks|]; [|reflexivity]. cbn [rmap bind]. cbv zeta.
  rewrite faster_error, faster_next. destruct (Rle_dec (step_error h ks) atol); [|apply IH]. unfold step_state. rewrite faster_accumulate.
  assert (T : t / c + h / c = (t + h) / c) by (field; lra). rewrite T.
  destruct (N + 1 =? block)%nat; [reflexivity|]. rewrite IH. destruct (trace_loop fuel block field b atol hmax (N + 1) _ _ _); reflexivity.
Qed.
Lemma faster_particle fuel block b atol t y :
  trace_particle fuel block field' b atol (t / c) (faster c y) = rmap (map (faster_sample c)) (trace_particle fuel block field b atol t y).
Proof.
  unfold trace_particle. cbn [faster s_vel]. rewrite norm_scale, Rabs_pos_eq by lra.
  destruct (Req_EM_T (norm (s_vel y)) 0) as [E|N].
  - rewrite E, Rmult_0_r. destruct (Req_EM_T 0 0); [reflexivity|contradiction].
  - destruct (Req_EM_T (c * norm (s_vel y)) 0) as [E|_]; [exfalso; apply Rmult_integral in E; destruct E; lra|]. cbv zeta.
    change (mkstate (s_pos y) (vscale c (s_vel y))) with (faster c y). replace (TRACING_STEP_MAX / (c * norm (s_vel y))) with (TRACING_STEP_MAX / norm (s_vel y) / c) by (field; split; lra).
    rewrite faster_loop. destruct (trace_loop _ _ field _ _ _ _ _ _ _); reflexivity.
Qed.
Lemma faster_blocks fuel inner block b atol : forall first t y,
  trace_blocks fuel inner block field' b atol first (t / c) (faster c y) = rmap (map (faster_sample c)) (trace_blocks fuel inner block field b atol first t y).
Proof.
  induction fuel as [|fuel IH]; intros first t y; [reflexivity|]. cbn [trace_blocks]. rewrite faster_particle. destruct (trace_particle inner block field b atol t y) as [l|]; [|reflexivity].
  cbn [rmap bind]. cbv zeta. rewrite map_length.
  assert (K : (if first then map (faster_sample c) l else tl (map (faster_sample c) l)) = map (faster_sample c) (if first then l else tl l)) by (destruct first, l; reflexivity).
  rewrite K. destruct (length l =? block)%nat; [|reflexivity]. rewrite map_length. set (kept := if first then l else tl l).
  unfold np_get. rewrite nth_error_map. destruct (nth_error kept (length kept - 1)) as [x|]; [|reflexivity]. cbn [option_map bind faster_sample fst snd].
  rewrite IH. destruct (trace_blocks fuel inner block field b atol false (fst x) (snd x)); cbn [rmap bind]; [rewrite map_app|]; reflexivity.
Qed.
Lemma faster_plane_loop p0 n l : forall next, plane_loop p0 n (faster c next) (map (faster c) l) = option_map (faster c) (plane_loop p0 n next l).
Proof.
  induction l as [|s l IH]; intros next; [reflexivity|]. cbn [map plane_loop]. cbv zeta. cbn [faster s_pos].
  destruct (Bool.eqb _ _) eqn:E; [apply IH|]. cbn [option_map]. f_equal. rewrite !faster_sscale, faster_add. reflexivity.
Qed.
Lemma faster_plane l p0 n : plane_intersection (map (faster c) l) p0 n = rmap (faster c) (plane_intersection l p0 n).
Proof.
  unfold plane_intersection. rewrite <- map_rev. destruct (rev l) as [|a [|b m]]; [reflexivity..|]. cbn [map].
  pose proof (faster_plane_loop p0 n (b :: m) a) as H. cbn [map] in H. rewrite H. destruct (plane_loop p0 n a (b :: m)); reflexivity.
Qed.
Lemma faster_convert v : convert_velocity_to_SI (vscale (c * c) v) = rmap (vscale c) (convert_velocity_to_SI v).
Proof.
  unfold convert_velocity_to_SI. cbv zeta. rewrite norm_scale, Rabs_pos_eq by nra. destruct (Req_EM_T (norm v) 0) as [E|N].
  - rewrite E, Rmult_0_r. destruct (Req_EM_T 0 0); [reflexivity|contradiction].
  - destruct (Req_EM_T (c * c * norm v) 0) as [E|_]; [exfalso; apply Rmult_integral in E; destruct E; nra|]. cbn [rmap]. f_equal.
    replace (2 * (c * c * norm v) * e_charge / m_e) with ((c * c) * (2 * norm v * e_charge / m_e)) by (field; unfold m_e; lra). rewrite sqrt_mult_alt by nra.
    replace (sqrt (c * c)) with c by (symmetry; apply sqrt_square; lra). apply vec_eq; cbn -[e_charge m_e]; field; split; lra.
Qed.
End Trace.
