(** Traces in a displaced field. *)
From Coq Require Import Reals Lra.
From Verif Require Import Base BaseFacts Vec GeomModel FieldModel SeriesModel DispatchModel TracingModel MotionModel MotionFacts MotionSolve.
Local Open Scope R_scope.

(** A state, a sample, a box displaced by [d]; the velocity stays. *)
Definition displaced (d : vec3) (s : state) : state := mkstate (move d (s_pos s)) (s_vel s).
Definition displaced_sample (d : vec3) (x : R * state) : R * state := (fst x, displaced d (snd x)).
Definition displaced_box (d : vec3) (b : box) : box := mkbox (move d (b_lo b)) (move d (b_hi b)).

Section Trace.
Context (d : vec3) (field field' : field_fun) (Hf : forall s, field' (displaced d s) = field s).
Lemma displaced_add y k : sadd (displaced d y) k = displaced d (sadd y k).
Proof. unfold sadd, displaced, move. cbn [s_pos s_vel]. f_equal. vec_ring. Qed.
Lemma displaced_accumulate c : forall ks y, accumulate (displaced d y) c ks = displaced d (accumulate y c ks).
Proof. unfold accumulate. induction c as [|x c IH]; intros [|k ks] y; cbn [combine fold_left]; [reflexivity..|]. rewrite displaced_add. apply IH. Qed.
Lemma displaced_k h y : produce_new_k field' h (displaced d y) = produce_new_k field h y.
Proof. unfold produce_new_k. rewrite Hf. reflexivity. Qed.
Lemma displaced_stages h y bs : forall ks, stages field' h (displaced d y) bs ks = stages field h y bs ks.
Proof. induction bs as [|b bs IH]; intros ks; [reflexivity|]. cbn [stages]. rewrite displaced_accumulate, displaced_k. destruct (produce_new_k field h (accumulate y b ks)); [|reflexivity]. apply IH. Qed.
Lemma leb_shift a b x : leb (a + x) (b + x) = leb a b.
Proof. unfold leb. destruct (Rle_dec a b), (Rle_dec (a + x) (b + x)); try reflexivity; lra. Qed.
Lemma displaced_within b p : within (displaced_box d b) (move d p) = within b p.
Proof. unfold within, displaced_box, move. cbn [b_lo b_hi vx vy vz vadd]. rewrite !leb_shift. reflexivity. Qed.
Lemma displaced_loop fuel block b atol hmax : forall N t y h,
  trace_loop fuel block field' (displaced_box d b) atol hmax N t (displaced d y) h = rmap (map (displaced_sample d)) (trace_loop fuel block field b atol hmax N t y h).
Proof.
  induction fuel as [|fuel IH]; intros N t y h; [reflexivity|]. cbn [trace_loop]. change (s_pos (displaced d y)) with (move d (s_pos y)). rewrite displaced_within.
  destruct (within b (s_pos y)); [|reflexivity]. unfold rk_stages. rewrite displaced_stages. destruct (stages field h y _ []) as [ks|]; [|reflexivity]. cbn [bind]. cbv zeta.
  destruct (Rle_dec (step_error h ks) atol); [|apply IH]. unfold step_state. rewrite displaced_accumulate.
  destruct (N + 1 =? block)%nat; [reflexivity|]. rewrite IH. destruct (trace_loop fuel block field b atol hmax (N + 1) _ _ _); reflexivity.
Qed.
Lemma displaced_particle fuel block b atol t y :
  trace_particle fuel block field' (displaced_box d b) atol t (displaced d y) = rmap (map (displaced_sample d)) (trace_particle fuel block field b atol t y).
Proof.
  unfold trace_particle. cbn [displaced s_vel]. destruct (Req_EM_T (norm (s_vel y)) 0); [reflexivity|]. cbv zeta.
  change (mkstate (move d (s_pos y)) (s_vel y)) with (displaced d y). rewrite displaced_loop. destruct (trace_loop _ _ field _ _ _ _ _ _ _); reflexivity.
Qed.
Lemma displaced_blocks fuel inner block b atol : forall first t y,
  trace_blocks fuel inner block field' (displaced_box d b) atol first t (displaced d y) = rmap (map (displaced_sample d)) (trace_blocks fuel inner block field b atol first t y).
Proof.
  induction fuel as [|fuel IH]; intros first t y; [reflexivity|]. cbn [trace_blocks]. rewrite displaced_particle. destruct (trace_particle inner block field b atol t y) as [l|]; [|reflexivity].
  cbn [rmap bind]. cbv zeta. rewrite map_length.
  assert (K : (if first then map (displaced_sample d) l else tl (map (displaced_sample d) l)) = map (displaced_sample d) (if first then l else tl l)) by (destruct first, l; reflexivity).
  rewrite K. destruct (length l =? block)%nat; [|reflexivity]. rewrite map_length. set (kept := if first then l else tl l).
  unfold np_get. rewrite nth_error_map. destruct (nth_error kept (length kept - 1)) as [x|]; [|reflexivity]. cbn [option_map bind displaced_sample fst snd].
  rewrite IH. destruct (trace_blocks fuel inner block field b atol false (fst x) (snd x)); cbn [rmap bind]; [rewrite map_app|]; reflexivity.
Qed.
End Trace.

(** ** Crossing a displaced plane *)
Lemma kappa_displaced d p0 n p : kappa (move d p0) n (move d p) = kappa p0 n p.
Proof. unfold kappa, move. cbn [vx vy vz vadd]. f_equal. ring. Qed.
Lemma displaced_plane_loop d p0 n l : forall next,
  plane_loop (move d p0) n (displaced d next) (map (displaced d) l) = option_map (displaced d) (plane_loop p0 n next l).
Proof.
  induction l as [|s l IH]; intros next; [reflexivity|]. cbn [map plane_loop]. cbv zeta. cbn [displaced s_pos]. rewrite !kappa_displaced.
  set (k := kappa p0 n (s_pos s)). set (k' := kappa p0 n (s_pos next)).
  destruct (Bool.eqb (ltb 0 k) (ltb 0 k')) eqn:E; [apply IH|]. cbn [option_map]. f_equal.
  assert (N : k - k' <> 0). { intros Z. assert (k = k') as Q by lra. rewrite Q, Bool.eqb_reflx in E. discriminate. }
  unfold displaced, sadd, sscale, move. cbn [s_pos s_vel]. f_equal. apply vec_eq; cbn; field; exact N.
Qed.
Lemma displaced_plane d l p0 n : plane_intersection (map (displaced d) l) (move d p0) n = rmap (displaced d) (plane_intersection l p0 n).
Proof.
  unfold plane_intersection. rewrite <- map_rev. destruct (rev l) as [|a [|b m]]; [reflexivity..|]. cbn [map].
  pose proof (displaced_plane_loop d p0 n (b :: m) a) as H. cbn [map] in H. rewrite H. destruct (plane_loop p0 n a (b :: m)); reflexivity.
Qed.
