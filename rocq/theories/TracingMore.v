(** Uniform force, free motion, intersections with planes, initial velocities. *)
From Coq Require Import Reals Lra Lia Psatz.
From Verif Require Import Base BaseFacts Vec GeomModel FieldModel SeriesModel DispatchModel TracingModel TracingFacts.
Local Open Scope R_scope.

(** ** Uniform force: the parabola *)
Definition parabola (F : vec3) (y0 : state) (t : R) : state :=
  mkstate (vadd (vadd (s_pos y0) (vscale t (s_vel y0))) (vscale (t ^ 2 / 2) (vscale EM F))) (vadd (s_vel y0) (vscale t (vscale EM F))).
Lemma parabola_0 F y : parabola F y 0 = y.
Proof. destruct_states. unfold parabola. apply state_eq; apply vec_eq; cbn -[pow EM]; field. Qed.
Lemma parabola_step F y t h : parabola F (parabola F y t) h = parabola F y (t + h).
Proof. unfold parabola. apply state_eq; apply vec_eq; cbn -[pow EM]; field. Qed.
Lemma one_step_uniform F atol h y y' : one_step (uniform F) atol h y y' -> y' = parabola F y h.
Proof.
  intros (ks & Hk & _ & ->). destruct (uniform_step F h y) as (ks' & Hk' & _ & E). rewrite Hk in Hk'. injection Hk' as <-. exact E.
Qed.
Lemma linked_uniform F bounds atol hm samples t0 y0 : linked (fun k => next_sample (uniform F) bounds atol (hm k)) samples -> hd_error samples = Some (t0, y0) ->
  forall k s, nth_error samples k = Some s -> snd s = parabola F y0 (fst s - t0).
Proof.
  intros L Hd. induction k as [|k IH]; intros s Hs.
  - destruct samples; [discriminate|]. cbn in *. injection Hd as ->. injection Hs as <-. cbn. rewrite Rminus_diag_eq by reflexivity. rewrite parabola_0. reflexivity.
  - destruct (nth_error samples k) as [a|] eqn:Ea.
    + specialize (IH a eq_refl). destruct (L k a s Ea Hs) as (_ & _ & _ & O). apply one_step_uniform in O. rewrite O, IH, parabola_step. f_equal. ring.
    + apply nth_error_None in Ea. assert (S k < length samples)%nat by (apply nth_error_Some; rewrite Hs; discriminate). lia.
Qed.

(** ** Free motion *)
Definition coast (y : state) (t D : R) (k : nat) : sample := (t + INR k * D, mkstate (vadd (s_pos y) (vscale (INR k * D) (s_vel y))) (s_vel y)).
Lemma coast_0 y t D : coast y t D 0 = (t, y).
Proof. destruct_states. unfold coast. cbn. f_equal; [ring|]. state_ring. Qed.
Lemma coast_shift y t D j k : coast (snd (coast y t D j)) (fst (coast y t D j)) D k = coast y t D (j + k).
Proof. unfold coast. cbn [fst snd s_pos s_vel]. rewrite plus_INR. f_equal; [ring|]. f_equal. vec_ring. Qed.
Lemma coast_vel y t D k : s_vel (snd (coast y t D k)) = s_vel y.
Proof. reflexivity. Qed.
Definition zero_field : field_fun := uniform vzero.
Lemma coast_step y t D : exists ks, rk_stages zero_field D y = Ok ks /\ step_error D ks = 0 /\ (t + D, step_state y ks) = coast y t D 1.
Proof.
  destruct (uniform_step vzero D y) as (ks & H1 & H2 & H3). exists ks. split; [exact H1|]. split; [exact H2|]. rewrite H3. unfold coast.
  change (INR 1) with 1. f_equal; [ring|]. destruct y as [[] []]. apply state_eq; apply vec_eq; cbn -[pow EM]; field.
Qed.
Lemma next_step_zero h hmax atol : next_step h hmax atol 0 = hmax.
Proof. unfold next_step. destruct (Req_EM_T 0 0); [reflexivity|congruence]. Qed.
Lemma coast_loop block bounds atol D : 0 <= atol -> forall n fuel N t y,
  (n < fuel)%nat -> (N < block)%nat ->
  (forall k, (k < n)%nat -> within bounds (s_pos (snd (coast y t D k))) = true) -> within bounds (s_pos (snd (coast y t D n))) = false ->
  trace_loop fuel block zero_field bounds atol D N t y D = Ok (map (coast y t D) (seq 1 (Nat.min n (block - N)))).
Proof.
  intros Ha. induction n as [|n IH]; intros [|fuel] N t y Hf HN Hin Hout; try lia; cbn [trace_loop].
  - rewrite coast_0 in Hout. cbn [snd] in Hout. rewrite Hout. reflexivity.
  - pose proof (Hin 0%nat ltac:(lia)) as W. rewrite coast_0 in W. cbn [snd] in W. rewrite W.
    destruct (coast_step y t D) as (ks & Hk & He & Hs). rewrite Hk. cbn [bind]. rewrite He. destruct (Rle_dec 0 atol); [|lra]. rewrite Hs, next_step_zero.
    destruct (Nat.eqb_spec (N + 1) block) as [B|B].
    + replace (block - N)%nat with 1%nat by lia. rewrite Nat.min_r by lia. reflexivity.
    + assert (T : t + D = fst (coast y t D 1)) by (unfold coast; cbn; ring). rewrite T.
      assert (Y : step_state y ks = snd (coast y t D 1)) by (rewrite <- Hs; reflexivity). rewrite Y.
      rewrite IH.
      * cbn [bind]. f_equal. replace (Nat.min (S n) (block - N)) with (S (Nat.min n (block - (N + 1)))) by lia. cbn [seq map]. f_equal.
        rewrite <- (seq_shift _ 1), map_map. apply map_ext. intros k. rewrite coast_shift. reflexivity.
      * lia.
      * lia.
      * intros k Hk'. rewrite coast_shift. apply Hin. lia.
      * rewrite coast_shift. exact Hout.
Qed.
Lemma coast_particle block bounds atol inner n t y : 0 <= atol -> (2 <= block)%nat -> (n < inner)%nat -> norm (s_vel y) <> 0 ->
  let D := TRACING_STEP_MAX / norm (s_vel y) in
  (forall k, (k < n)%nat -> within bounds (s_pos (snd (coast y t D k))) = true) -> within bounds (s_pos (snd (coast y t D n))) = false ->
  trace_particle inner block zero_field bounds atol t y = Ok (map (coast y t D) (seq 0 (S (Nat.min n (block - 1))))).
Proof.
  intros Ha Hb Hf Hv D Hin Hout. unfold trace_particle. destruct (Req_EM_T (norm (s_vel y)) 0); [contradiction|]. fold D.
  rewrite (coast_loop block bounds atol D Ha n) by (assumption || lia). cbn [bind]. f_equal. cbn [seq map]. rewrite coast_0. reflexivity.
Qed.
Lemma seq_shift' m d : forall s, map (fun k => (d + k)%nat) (seq s m) = seq (s + d) m.
Proof. induction m as [|m IH]; intros s; [reflexivity|]. cbn [seq map]. rewrite IH. f_equal. lia. Qed.
Lemma coast_blocks block bounds atol inner : 0 <= atol -> (2 <= block)%nat -> forall fuel n first t y, (n < inner)%nat -> (n < fuel)%nat -> norm (s_vel y) <> 0 ->
  let D := TRACING_STEP_MAX / norm (s_vel y) in
  (forall k, (k < n)%nat -> within bounds (s_pos (snd (coast y t D k))) = true) -> within bounds (s_pos (snd (coast y t D n))) = false ->
  trace_blocks fuel inner block zero_field bounds atol first t y = Ok (map (coast y t D) (if first then seq 0 (S n) else seq 1 n)).
Proof.
  intros Ha Hb. induction fuel as [|fuel IH]; intros n first t y Hi Hf Hv D Hin Hout; [lia|]. cbn [trace_blocks].
  rewrite (coast_particle block bounds atol inner n t y Ha Hb Hi Hv Hin Hout). fold D. cbn [bind]. rewrite map_length, seq_length.
  destruct (Nat.eqb_spec (S (Nat.min n (block - 1))) block) as [B|B].
  - assert (Hn : (block - 1 <= n)%nat) by lia. replace (Nat.min n (block - 1)) with (block - 1)%nat by lia.
    set (kept := if first then _ else _).
    assert (Ek : kept = map (coast y t D) (if first then seq 0 (S (block - 1)) else seq 1 (block - 1))) by (unfold kept; destruct first; reflexivity).
    assert (Ef : np_get kept (length kept - 1) = Ok (coast y t D (block - 1))).
    { rewrite Ek. apply np_get_ok. rewrite map_length, nth_error_map. destruct first; rewrite seq_length.
      - replace (S (block - 1) - 1)%nat with (block - 1)%nat by lia.
        rewrite (nth_error_nth' _ 0%nat) by (rewrite seq_length; lia). rewrite seq_nth by lia. reflexivity.
      - rewrite (nth_error_nth' _ 0%nat) by (rewrite seq_length; lia). rewrite seq_nth by lia. cbn [option_map]. f_equal. f_equal. lia. }
    rewrite Ef. cbn [bind]. set (final := coast y t D (block - 1)). assert (Vf : s_vel (snd final) = s_vel y) by reflexivity.
    rewrite (IH (n - (block - 1))%nat false (fst final) (snd final)); rewrite ?Vf; try lia; try assumption; fold D.
    + cbn [bind]. f_equal. rewrite Ek. set (m := (n - (block - 1))%nat).
      assert (Es : map (coast (snd final) (fst final) D) (seq 1 m) = map (coast y t D) (seq (1 + (block - 1)) m)).
      { rewrite <- (seq_shift' m (block - 1) 1). rewrite map_map. apply map_ext. intros k. unfold final. rewrite coast_shift. f_equal. }
      rewrite Es, <- map_app. f_equal. destruct first.
      * replace (S n) with (S (block - 1) + m)%nat by (unfold m; lia). rewrite seq_app. f_equal.
      * replace n with ((block - 1) + m)%nat by (unfold m; lia). rewrite seq_app. f_equal.
    + intros k Hk. unfold final. rewrite coast_shift. apply Hin. lia.
    + unfold final. rewrite coast_shift. replace (block - 1 + (n - (block - 1)))%nat with n by lia. exact Hout.
  - replace (Nat.min n (block - 1)) with n by lia. destruct first; reflexivity.
Qed.

(** A moving particle leaves every box. *)
Lemma first_false (P : nat -> bool) n : P n = false -> exists m, P m = false /\ forall k, (k < m)%nat -> P k = true.
Proof.
  revert P. induction n as [|n IH]; intros P H.
  - exists 0%nat. split; [exact H|]. intros k Hk. lia.
  - destruct (P 0%nat) eqn:E.
    + destruct (IH (fun k => P (S k)) H) as (m & H1 & H2). exists (S m). split; [exact H1|]. intros [|k] Hk; [exact E|apply H2; lia].
    + exists 0%nat. split; [exact E|]. intros k Hk. lia.
Qed.
Lemma INR_archimed (d x : R) : 0 < d -> exists n, x < INR n * d.
Proof.
  intros P. destruct (archimed (x / d)) as [A _]. exists (Z.to_nat (up (x / d))).
  assert (H : x / d < INR (Z.to_nat (up (x / d)))).
  { destruct (Z_le_gt_dec 0 (up (x / d))) as [G|G].
    - rewrite INR_IZR_INZ, Z2Nat.id by exact G. lra.
    - assert (IZR (up (x / d)) <= 0) by (apply IZR_le; lia). pose proof (pos_INR (Z.to_nat (up (x / d)))). lra. }
  apply (Rmult_lt_compat_r d) in H; [|exact P]. replace (x / d * d) with x in H by (field; lra). exact H.
Qed.
Lemma leaves_interval (lo hi x v : R) : v <> 0 -> exists n, leb lo (x + INR n * v) && leb (x + INR n * v) hi = false.
Proof.
  intros Hv. destruct (Rlt_dec 0 v) as [P|P].
  - destruct (INR_archimed v (hi - x) P) as [n Hn]. exists n. destruct (leb (x + INR n * v) hi) eqn:E; [|apply andb_false_r]. apply leb_true in E. lra.
  - destruct (INR_archimed (- v) (x - lo)) as [n Hn]; [lra|]. exists n. destruct (leb lo (x + INR n * v)) eqn:E; [|reflexivity]. apply leb_true in E. lra.
Qed.
Lemma within_split b p : within b p = (leb (vx (b_lo b)) (vx p) && leb (vx p) (vx (b_hi b))) && ((leb (vy (b_lo b)) (vy p) && leb (vy p) (vy (b_hi b))) && (leb (vz (b_lo b)) (vz p) && leb (vz p) (vz (b_hi b)))).
Proof. unfold within. rewrite <- !andb_assoc. reflexivity. Qed.
Lemma leaves_box bounds y t D : 0 < D -> norm (s_vel y) <> 0 -> exists n, within bounds (s_pos (snd (coast y t D n))) = false.
Proof.
  intros HD Hv. assert (C : vx (s_vel y) <> 0 \/ vy (s_vel y) <> 0 \/ vz (s_vel y) <> 0).
  { destruct (Req_dec (vx (s_vel y)) 0) as [X|]; [|auto]. destruct (Req_dec (vy (s_vel y)) 0) as [Y|]; [|auto]. destruct (Req_dec (vz (s_vel y)) 0) as [Z|]; [|auto].
    exfalso. apply Hv. apply norm_zero. apply vec_eq; assumption. }
  assert (G : forall c : vec3 -> R, (forall a k b, c (vadd a (vscale k b)) = c a + k * c b) -> c (s_vel y) <> 0 -> forall lo hi, exists n, leb lo (c (s_pos (snd (coast y t D n)))) && leb (c (s_pos (snd (coast y t D n)))) hi = false).
  { intros c Hc Hn lo hi. destruct (leaves_interval lo hi (c (s_pos y)) (D * c (s_vel y))) as [n Hn']; [nra|]. exists n. unfold coast. cbn [snd s_pos]. rewrite Hc.
    replace (INR n * D * c (s_vel y)) with (INR n * (D * c (s_vel y))) by ring. exact Hn'. }
  destruct C as [C|[C|C]].
  - destruct (G vx (fun a k b => eq_refl) C (vx (b_lo bounds)) (vx (b_hi bounds))) as [n Hn]. exists n. rewrite within_split, Hn. reflexivity.
  - destruct (G vy (fun a k b => eq_refl) C (vy (b_lo bounds)) (vy (b_hi bounds))) as [n Hn]. exists n. rewrite within_split, Hn. apply andb_false_r.
  - destruct (G vz (fun a k b => eq_refl) C (vz (b_lo bounds)) (vz (b_hi bounds))) as [n Hn]. exists n. rewrite within_split, Hn, !andb_false_r. reflexivity.
Qed.

(** ** Intersection with a plane *)
(** signed distance, in the direction of the normal *)
Definition height (p0 normal : vec3) (s : state) : R := dot normal (vsub (s_pos s) p0).
Definition opposite_sides (p0 normal : vec3) (a b : state) : Prop :=
  height p0 normal a < 0 <= height p0 normal b \/ height p0 normal b < 0 <= height p0 normal a.
Definition on_segment (a b s : state) : Prop := exists w, 0 <= w <= 1 /\ s = sadd (sscale (1 - w) a) (sscale w b).
Lemma kappa_height p0 normal s : normal <> vzero -> kappa p0 normal (s_pos s) = - height p0 normal s / norm normal.
Proof. intros _. unfold kappa, height, dot, vsub. cbn [vx vy vz]. f_equal. ring. Qed.
Lemma kappa_side p0 normal s : ltb 0 (kappa p0 normal (s_pos s)) = true <-> height p0 normal s < 0.
Proof.
  rewrite ltb_true. destruct (Req_dec (norm normal) 0) as [Z|Z].
  - pose proof (proj1 (norm_zero normal) Z) as ->. unfold kappa, height, dot. rewrite Z. cbn [vx vy vz vzero]. unfold Rdiv. rewrite !Rmult_0_l, !Rmult_0_r. replace (0 - 0 + 0 - 0 + 0 - 0) with 0 by ring. rewrite Rmult_0_l. lra.
  - rewrite kappa_height by (intros E; apply Z; apply norm_zero; exact E). pose proof (norm_pos _ Z) as P. split; intros H.
    + destruct (Rlt_dec (height p0 normal s) 0); [assumption|]. exfalso. assert (- height p0 normal s / norm normal <= 0); [|lra].
      unfold Rdiv. assert (0 < / norm normal) by (apply Rinv_0_lt_compat; exact P). nra.
    + apply Rdiv_lt_0_compat; lra.
Qed.
Lemma sides_differ p0 normal a b : Bool.eqb (ltb 0 (kappa p0 normal (s_pos a))) (ltb 0 (kappa p0 normal (s_pos b))) = false <-> opposite_sides p0 normal a b.
Proof.
  unfold opposite_sides. pose proof (kappa_side p0 normal a) as A. pose proof (kappa_side p0 normal b) as B.
  destruct (ltb 0 (kappa p0 normal (s_pos a))), (ltb 0 (kappa p0 normal (s_pos b))); cbn; split; intros H; try discriminate; try reflexivity.
  - pose proof (proj1 A eq_refl). pose proof (proj1 B eq_refl). lra.
  - left. split; [apply A; reflexivity|]. destruct (Rle_dec 0 (height p0 normal b)); [assumption|]. assert (height p0 normal b < 0) by lra. pose proof (proj2 B H0). discriminate.
  - right. split; [apply B; reflexivity|]. destruct (Rle_dec 0 (height p0 normal a)); [assumption|]. assert (height p0 normal a < 0) by lra. pose proof (proj2 A H0). discriminate.
  - destruct H as [[H _]|[H _]]; [apply A in H|apply B in H]; discriminate.
Qed.
Lemma opposite_normal p0 normal a b : opposite_sides p0 normal a b -> normal <> vzero.
Proof. intros [H|H] ->; unfold height, dot, vzero in H; cbn in H; lra. Qed.
Lemma crossing_point p0 normal next s : opposite_sides p0 normal s next ->
  let k := kappa p0 normal (s_pos s) in let prev_k := kappa p0 normal (s_pos next) in
  let r := sadd (sscale (k / (k - prev_k)) next) (sscale (- prev_k / (k - prev_k)) s) in
  on_segment s next r /\ height p0 normal r = 0.
Proof.
  intros O. pose proof (opposite_normal _ _ _ _ O) as N. cbv zeta. rewrite !kappa_height by exact N.
  assert (P : 0 < norm normal) by (apply norm_pos; intros E; apply N; apply norm_zero; exact E).
  set (a := height p0 normal s) in *. set (b := height p0 normal next) in *.
  assert (D : a - b <> 0) by (unfold opposite_sides in O; fold a b in O; lra).
  assert (E1 : - a / norm normal / (- a / norm normal - - b / norm normal) = a / (a - b)) by (field; repeat split; lra).
  assert (E2 : - (- b / norm normal) / (- a / norm normal - - b / norm normal) = - b / (a - b)) by (field; repeat split; lra).
  rewrite E1, E2. split.
  - exists (a / (a - b)). split.
    + unfold opposite_sides in O. fold a b in O. destruct O as [[H1 H2]|[H1 H2]].
      * replace (a / (a - b)) with (- a / (b - a)) by (field; lra). split.
        -- apply Rmult_le_pos; [lra|]. apply Rlt_le, Rinv_0_lt_compat. lra.
        -- apply (Rmult_le_reg_r (b - a)); [lra|]. unfold Rdiv. rewrite Rmult_assoc, Rinv_l by lra. lra.
      * split.
        -- apply Rmult_le_pos; [lra|]. apply Rlt_le, Rinv_0_lt_compat. lra.
        -- apply (Rmult_le_reg_r (a - b)); [lra|]. unfold Rdiv. rewrite Rmult_assoc, Rinv_l by lra. lra.
    + rewrite sadd_comm. f_equal. f_equal. field. exact D.
  - assert (H : forall u v x y, u + v = 1 -> height p0 normal (sadd (sscale u x) (sscale v y)) = u * height p0 normal x + v * height p0 normal y).
    { intros u v x y Huv. assert (u = 1 - v) by lra. subst u. unfold height, dot, vsub, sadd, sscale, vadd, vscale. cbn [s_pos vx vy vz]. ring. }
    rewrite H by (field; exact D). fold a b. field. exact D.
Qed.
Lemma plane_loop_spec p0 normal : forall l next,
  match plane_loop p0 normal next l with
  | Some r => exists i a b, nth_error (next :: l) i = Some b /\ nth_error (next :: l) (S i) = Some a /\ opposite_sides p0 normal a b /\ on_segment a b r /\ height p0 normal r = 0 /\
      forall j x y, (j < i)%nat -> nth_error (next :: l) j = Some y -> nth_error (next :: l) (S j) = Some x -> ~ opposite_sides p0 normal x y
  | None => forall j x y, nth_error (next :: l) j = Some y -> nth_error (next :: l) (S j) = Some x -> ~ opposite_sides p0 normal x y
  end.
Proof.
  induction l as [|s l IH]; intros next; cbn [plane_loop].
  - intros [|j] x y _ Hx; cbn in Hx; [discriminate|destruct j; discriminate].
  - destruct (Bool.eqb _ _) eqn:E.
    + assert (N : ~ opposite_sides p0 normal s next) by (intros O; apply sides_differ in O; congruence).
      specialize (IH s). destruct (plane_loop p0 normal s l) as [r|].
      * destruct IH as (i & a & b & H1 & H2 & H3 & H4 & H5 & H6). exists (S i), a, b. repeat split; try assumption.
        intros [|j] x y Hj Hy Hx; cbn in Hy, Hx; [injection Hy as <-; injection Hx as <-; exact N|]. apply (H6 j); [lia|exact Hy|exact Hx].
      * intros [|j] x y Hy Hx; cbn in Hy, Hx; [injection Hy as <-; injection Hx as <-; exact N|]. exact (IH j x y Hy Hx).
    + apply sides_differ in E. destruct (crossing_point p0 normal next s E) as [C1 C2]. exists 0%nat, s, next. repeat split; try assumption. intros j x y Hj. lia.
Qed.
Lemma nth_error_rev {A} (l : list A) k : (k < length l)%nat -> nth_error (rev l) k = nth_error l (length l - 1 - k).
Proof.
  intros H. destruct l as [|d l']; [cbn in H; lia|]. set (l := d :: l') in *.
  rewrite (nth_error_nth' (rev l) d) by (rewrite rev_length; exact H). rewrite rev_nth by exact H. rewrite (nth_error_nth' l d) by lia. f_equal. f_equal. lia.
Qed.
Lemma plane_spec positions p0 normal : (2 <= length positions)%nat ->
  match plane_intersection positions p0 normal with
  | Ok r => exists i a b, nth_error positions i = Some a /\ nth_error positions (S i) = Some b /\ opposite_sides p0 normal a b /\ on_segment a b r /\ height p0 normal r = 0 /\
      forall j x y, (i < j)%nat -> nth_error positions j = Some x -> nth_error positions (S j) = Some y -> ~ opposite_sides p0 normal x y
  | Err e => e = ValueError /\ forall j x y, nth_error positions j = Some x -> nth_error positions (S j) = Some y -> ~ opposite_sides p0 normal x y
  end.
Proof.
  intros L. unfold plane_intersection. destruct (rev positions) as [|next l] eqn:E; [apply (f_equal (@length state)) in E; rewrite rev_length in E; cbn in E; lia|].
  destruct l as [|s l]; [apply (f_equal (@length state)) in E; rewrite rev_length in E; cbn in E; lia|]. 
  assert (T : forall k x y, nth_error positions k = Some x -> nth_error positions (S k) = Some y ->
    nth_error (next :: s :: l) (length positions - 2 - k) = Some y /\ nth_error (next :: s :: l) (S (length positions - 2 - k)) = Some x /\ (S k < length positions)%nat).
  { intros k x y Hx Hy. assert (B : (S k < length positions)%nat) by (apply nth_error_Some; rewrite Hy; discriminate). rewrite <- E.
    rewrite !nth_error_rev by lia. replace (length positions - 1 - (length positions - 2 - k))%nat with (S k) by lia. replace (length positions - 1 - S (length positions - 2 - k))%nat with k by lia. auto. }
  pose proof (plane_loop_spec p0 normal (s :: l) next) as P. revert P. destruct (plane_loop p0 normal next (s :: l)) as [r|]; intros P; cbv iota beta.
  - destruct P as (i & a & b & H1 & H2 & H3 & H4 & H5 & H6).
    assert (B : (S i < length positions)%nat). { rewrite <- (rev_length positions), E. apply nth_error_Some. rewrite H2. discriminate. }
    rewrite <- E in H1, H2. rewrite nth_error_rev in H1, H2 by lia.
    exists (length positions - 2 - i)%nat, a, b. split; [replace (length positions - 2 - i)%nat with (length positions - 1 - S i)%nat by lia; exact H2|].
    split; [replace (S (length positions - 2 - i)) with (length positions - 1 - i)%nat by lia; exact H1|]. repeat split; try assumption.
    intros j x y Hj Hx Hy. destruct (T j x y Hx Hy) as (T1 & T2 & T3). apply (H6 (length positions - 2 - j)%nat); [lia|exact T1|exact T2].
  - split; [reflexivity|]. intros j x y Hx Hy. destruct (T j x y Hx Hy) as (T1 & T2 & _). exact (P _ x y T1 T2).
Qed.

(** ** Velocities *)
Lemma velocity_vec_ok eV d v : velocity_vec eV d = Ok v -> 0 < eV /\ d <> vzero /\ norm v = eV /\ exists k, 0 < k /\ v = vscale k d.
Proof.
  unfold velocity_vec, py_assert. intros H. destruct (ltb 0 eV) eqn:E; [|discriminate]. apply ltb_true in E. cbn [bind] in H.
  destruct (Req_EM_T (norm d) 0) as [|N]; [discriminate|]. injection H as <-. pose proof (norm_pos _ N) as P.
  split; [exact E|]. split; [intros ->; apply N; apply norm_zero; reflexivity|]. split.
  - rewrite !norm_scale. rewrite (Rabs_pos_eq eV) by lra. rewrite Rabs_pos_eq by (apply Rlt_le, Rinv_0_lt_compat; exact P). field. exact N.
  - exists (/ norm d * eV). split; [apply Rmult_lt_0_compat; [apply Rinv_0_lt_compat; exact P|exact E]|]. vec_ring.
Qed.
Lemma velocity_SI v w : convert_velocity_to_SI v = Ok w -> v <> vzero /\ m_e * norm w ^ 2 / 2 = e_charge * norm v /\ exists k, 0 < k /\ w = vscale k v.
Proof.
  unfold convert_velocity_to_SI. destruct (Req_EM_T (norm v) 0) as [|N]; [discriminate|]. intros H. injection H as <-. pose proof (norm_pos _ N) as P.
  assert (Q : 0 < 2 * norm v * e_charge / m_e). { apply Rdiv_lt_0_compat; [|unfold m_e; lra]. unfold e_charge. nra. }
  pose proof (sqrt_lt_R0 _ Q) as S1.
  split; [intros ->; apply N; apply norm_zero; reflexivity|]. split.
  - rewrite !norm_scale. rewrite (Rabs_pos_eq (sqrt _)) by lra. rewrite Rabs_pos_eq by (apply Rlt_le, Rinv_0_lt_compat; exact P).
    replace ((sqrt (2 * norm v * e_charge / m_e) * (/ norm v * norm v)) ^ 2) with (sqrt (2 * norm v * e_charge / m_e) * sqrt (2 * norm v * e_charge / m_e)) by (field; exact N).
    rewrite sqrt_sqrt by lra. field. unfold m_e; lra.
  - exists (sqrt (2 * norm v * e_charge / m_e) * / norm v). split; [apply Rmult_lt_0_compat; [exact S1|apply Rinv_0_lt_compat; exact P]|]. vec_ring.
Qed.
