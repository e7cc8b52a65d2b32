(** Traces in turned fields; planes through the axis. *)
From Coq Require Import Reals Lra Lia.
From Verif Require Import Base BaseFacts Vec GeomModel FieldModel SeriesModel DispatchModel TracingModel MotionSolve SymmetryModel.
Local Open Scope R_scope.

Lemma axis_linear Q d : axis_map Q d -> (forall a b, Q (vadd a b) = vadd (Q a) (Q b)) /\ (forall k a, Q (vscale k a) = vscale k (Q a)).
Proof.
  induction 1 as [|Q d _ [A B]|Q d _ [A B]|Q d _ [A B]]; (split; intros; [try rewrite !A|try rewrite !B]); try reflexivity; apply vec_eq; cbn; ring.
Qed.
Lemma axis_dot Q d : axis_map Q d -> forall a b, dot (Q a) (Q b) = dot a b.
Proof. induction 1 as [|Q d _ A|Q d _ A|Q d _ A]; intros a b; [reflexivity|..]; rewrite <- (A a b); unfold dot; cbn; ring. Qed.
Lemma axis_cross Q d : axis_map Q d -> forall a b, cross (Q a) (Q b) = vscale d (Q (cross a b)).
Proof.
  induction 1 as [|Q d _ A|Q d _ A|Q d _ A]; intros a b; [apply vec_eq; cbn; ring|..]; specialize (A a b); unfold cross at 1, vscale in A; injection A as Ax Ay Az; apply vec_eq; cbn; lra.
Qed.
Lemma axis_det Q d : axis_map Q d -> d * d = 1.
Proof. induction 1; lra. Qed.
Lemma axis_max Q d : axis_map Q d -> forall v, max_abs (Q v) = max_abs v.
Proof.
  induction 1 as [|Q d _ A|Q d _ A|Q d _ A]; intros v; [reflexivity|..]; rewrite <- (A v); unfold max_abs; cbn [vx vy vz]; rewrite ?Rabs_Ropp.
  - reflexivity.
  - rewrite (Rmax_comm (Rabs (vy (Q v)))). reflexivity.
  - rewrite <- !Rmax_assoc. f_equal. apply Rmax_comm.
Qed.
Lemma axis_norm Q d : axis_map Q d -> forall v, norm (Q v) = norm v.
Proof. intros H v. apply norm_eq. apply (axis_dot Q d H). Qed.
Lemma axis_zero Q d : axis_map Q d -> Q vzero = vzero.
Proof. intros H. replace vzero with (vscale 0 vzero) at 1 by (unfold vzero; vec_ring). rewrite (proj2 (axis_linear Q d H)). unfold vzero; apply vec_eq; cbn; ring. Qed.
Lemma axis_sub Q d : axis_map Q d -> forall a b, Q (vsub a b) = vsub (Q a) (Q b).
Proof. intros H a b. destruct (axis_linear Q d H) as [A B]. replace (vsub a b) with (vadd a (vscale (-1) b)) by vec_ring. rewrite A, B. vec_ring. Qed.

(** A state turned and displaced; an increment turned. *)
Definition turned (Q : vec3 -> vec3) (c : vec3) (s : state) : state := mkstate (vadd (Q (s_pos s)) c) (Q (s_vel s)).
Definition turned_inc (Q : vec3 -> vec3) (s : state) : state := mkstate (Q (s_pos s)) (Q (s_vel s)).
Definition turned_sample (Q : vec3 -> vec3) (c : vec3) (x : R * state) : R * state := (fst x, turned Q c (snd x)).

Section Trace.
Context (Q : vec3 -> vec3) (d : R) (c : vec3) (HQ : axis_map Q d) (field field' : field_fun) (Hf : forall s, field' (turned Q c s) = rmap Q (field s))
  (bd bd' : box) (Hb : same_region Q c bd bd').
Notation G := (turned Q c). Notation I := (turned_inc Q).
Lemma turned_add y k : sadd (G y) (I k) = G (sadd y k).
Proof. unfold sadd, turned, turned_inc. cbn [s_pos s_vel]. rewrite !(proj1 (axis_linear Q d HQ)). f_equal. vec_ring. Qed.
Lemma turned_add_inc y k : sadd (I y) (I k) = I (sadd y k).
Proof. unfold sadd, turned_inc. cbn [s_pos s_vel]. rewrite !(proj1 (axis_linear Q d HQ)). reflexivity. Qed.
Lemma turned_sscale k y : sscale k (I y) = I (sscale k y).
Proof. unfold sscale, turned_inc. cbn [s_pos s_vel]. rewrite !(proj2 (axis_linear Q d HQ)). reflexivity. Qed.
Lemma turned_accumulate l : forall ks y, accumulate (G y) l (map I ks) = G (accumulate y l ks).
Proof. unfold accumulate. induction l as [|x l IH]; intros [|k ks] y; cbn [map combine fold_left]; [reflexivity..|]. cbn [fst snd]. rewrite turned_sscale, turned_add. apply IH. Qed.
Lemma turned_accumulate_inc l : forall ks y, accumulate (I y) l (map I ks) = I (accumulate y l ks).
Proof. unfold accumulate. induction l as [|x l IH]; intros [|k ks] y; cbn [map combine fold_left]; [reflexivity..|]. cbn [fst snd]. rewrite turned_sscale, turned_add_inc. apply IH. Qed.
Lemma turned_k h y : produce_new_k field' h (G y) = rmap I (produce_new_k field h y).
Proof. unfold produce_new_k. rewrite Hf. destruct (field y) as [F|]; [|reflexivity]. cbn [rmap bind]. f_equal. unfold turned, turned_inc. cbn [s_pos s_vel]. rewrite !(proj2 (axis_linear Q d HQ)). reflexivity. Qed.
Lemma turned_stages h y bs : forall ks, stages field' h (G y) bs (map I ks) = rmap (map I) (stages field h y bs ks).
Proof.
  induction bs as [|b bs IH]; intros ks; [reflexivity|]. cbn [stages]. rewrite turned_accumulate, turned_k. destruct (produce_new_k field h (accumulate y b ks)) as [k|]; [|reflexivity]. cbn [rmap bind].
  rewrite <- IH, map_app. reflexivity.
Qed.
Lemma turned_zero : I szero = szero.
Proof. unfold turned_inc, szero. cbn [s_pos s_vel]. rewrite (axis_zero Q d HQ). reflexivity. Qed.
Lemma turned_error h ks : step_error h (map I ks) = step_error h ks.
Proof. unfold step_error. cbv zeta. rewrite <- turned_zero at 1 2. rewrite turned_accumulate_inc. cbn [turned_inc s_pos s_vel]. rewrite !(axis_max Q d HQ). reflexivity. Qed.
Lemma turned_loop fuel block atol hmax : forall N t y h,
  trace_loop fuel block field' bd' atol hmax N t (G y) h = rmap (map (turned_sample Q c)) (trace_loop fuel block field bd atol hmax N t y h).
Proof.
  induction fuel as [|fuel IH]; intros N t y h; [reflexivity|]. cbn [trace_loop]. change (s_pos (G y)) with (vadd (Q (s_pos y)) c). rewrite (Hb (s_pos y)).
  destruct (within bd (s_pos y)); [|reflexivity]. unfold rk_stages. pose proof (turned_stages h y [[]; B2; B3; B4; B5; B6] []) as St. cbn [map] in St. rewrite St. destruct (stages field h y _ []) as [ks|]; [|reflexivity]. cbn [rmap bind]. cbv zeta.
  rewrite turned_error. destruct (Rle_dec (step_error h ks) atol); [|apply IH]. unfold step_state. rewrite turned_accumulate.
  destruct (N + 1 =? block)%nat; [reflexivity|]. rewrite IH. destruct (trace_loop fuel block field bd atol hmax (N + 1) _ _ _); reflexivity.
Qed.
Lemma turned_particle fuel block atol t y :
  trace_particle fuel block field' bd' atol t (G y) = rmap (map (turned_sample Q c)) (trace_particle fuel block field bd atol t y).
Proof.
  unfold trace_particle. change (s_vel (G y)) with (Q (s_vel y)). rewrite (axis_norm Q d HQ). destruct (Req_EM_T (norm (s_vel y)) 0); [reflexivity|]. cbv zeta.
  rewrite turned_loop. destruct (trace_loop _ _ field _ _ _ _ _ _ _); reflexivity.
Qed.
Lemma turned_blocks fuel inner block atol : forall first t y,
  trace_blocks fuel inner block field' bd' atol first t (G y) = rmap (map (turned_sample Q c)) (trace_blocks fuel inner block field bd atol first t y).
Proof.
  induction fuel as [|fuel IH]; intros first t y; [reflexivity|]. cbn [trace_blocks]. rewrite turned_particle. destruct (trace_particle inner block field bd atol t y) as [l|]; [|reflexivity].
  cbn [rmap bind]. cbv zeta. rewrite map_length.
  assert (K : (if first then map (turned_sample Q c) l else tl (map (turned_sample Q c) l)) = map (turned_sample Q c) (if first then l else tl l)) by (destruct first, l; reflexivity).
  rewrite K. destruct (length l =? block)%nat; [|reflexivity]. rewrite map_length. set (kept := if first then l else tl l).
  unfold np_get. rewrite nth_error_map. destruct (nth_error kept (length kept - 1)) as [x|]; [|reflexivity]. cbn [option_map bind turned_sample fst snd].
  rewrite IH. destruct (trace_blocks fuel inner block field bd atol false (fst x) (snd x)); cbn [rmap bind]; [rewrite map_app|]; reflexivity.
Qed.
Lemma turned_convert v : convert_velocity_to_SI (Q v) = rmap Q (convert_velocity_to_SI v).
Proof. unfold convert_velocity_to_SI. cbv zeta. rewrite (axis_norm Q d HQ). destruct (Req_EM_T (norm v) 0); [reflexivity|]. cbn [rmap]. rewrite !(proj2 (axis_linear Q d HQ)). reflexivity. Qed.
Lemma turned_trace_map r : turned_trace Q c r (rmap (map (turned_sample Q c)) r).
Proof. destruct r as [l|]; cbn; [|reflexivity]. induction l; constructor; [repeat split|assumption]. Qed.
Lemma turned_wrapper fuel inner atol x v :
  turned_trace Q c (w <- convert_velocity_to_SI v ;; trace_particle_wrapper fuel inner field bd atol x w)
    (w <- convert_velocity_to_SI (Q v) ;; trace_particle_wrapper fuel inner field' bd' atol (vadd (Q x) c) w).
Proof.
  rewrite turned_convert. destruct (convert_velocity_to_SI v) as [w|]; [|reflexivity]. cbn [rmap bind]. unfold trace_particle_wrapper.
  change (mkstate (vadd (Q x) c) (Q w)) with (G (mkstate x w)). rewrite turned_blocks. apply turned_trace_map.
Qed.
End Trace.
Lemma turned_lorentz Q d v E H : axis_map Q d ->
  combine_elec_magnetic_field (Q v) (Q E) (vscale d (Q H)) vzero = Q (combine_elec_magnetic_field v E H vzero).
Proof.
  intros HQ. destruct (axis_linear Q d HQ) as [A B]. pose proof (axis_det Q d HQ) as D. unfold combine_elec_magnetic_field. cbv zeta. rewrite A. f_equal.
  replace (vadd H vzero) with H by (unfold vzero; vec_ring). replace (vadd (vscale d (Q H)) vzero) with (vscale d (Q H)) by (unfold vzero; vec_ring).
  replace (cross v (vscale MU_0 H)) with (vscale MU_0 (cross v H)) by (apply vec_eq; cbn -[MU_0]; ring). rewrite B.
  replace (cross (Q v) (vscale MU_0 (vscale d (Q H)))) with (vscale (MU_0 * d) (cross (Q v) (Q H))) by (apply vec_eq; cbn -[MU_0]; ring).
  rewrite (axis_cross Q d HQ). replace (vscale (MU_0 * d) (vscale d (Q (cross v H)))) with (vscale (MU_0 * (d * d)) (Q (cross v H))) by (apply vec_eq; cbn -[MU_0]; ring).
  rewrite D, Rmult_1_r. reflexivity.
Qed.
Lemma combine_total v E H C : combine_elec_magnetic_field v E H C = combine_elec_magnetic_field v E (vadd C H) vzero.
Proof. unfold combine_elec_magnetic_field. apply vec_eq; cbn -[MU_0]; ring. Qed.
(** The force on an electron, where no bounds are set, is the Lorentz force of the two fields. *)
Lemma tracer_lorentz f s : unbounded f ->
  tracer_field f s = Ok (combine_elec_magnetic_field (s_vel s) (electrostatic_field_at_point f (s_pos s)) (magnetostatic_field_at_point f (s_pos s)) vzero).
Proof.
  intros U. unfold tracer_field, electrostatic_field_at_point, magnetostatic_field_at_point. destruct U as [-> | B]; [reflexivity|]. destruct (b_class f); [|reflexivity].
  unfold field_radial_traceable. rewrite B. cbv zeta iota. rewrite combine_total. reflexivity.
Qed.

(** ** Maps about the axis *)
Lemma about_up Q d : axis_map Q d -> about_axis Q -> forall z, Q (V3 0 0 z) = V3 0 0 z.
Proof.
  intros HQ A z. pose proof (axis_dot Q d HQ (V3 0 0 z) (V3 0 0 z)) as D. pose proof (A (V3 0 0 z)) as Z. destruct (Q (V3 0 0 z)) as [a b z']. unfold dot in D. cbn in *. subst z'.
  assert (a = 0) by nra. assert (b = 0) by nra. subst. reflexivity.
Qed.
Lemma about_flat Q d : axis_map Q d -> about_axis Q -> forall v, Q (V3 (vx v) (vy v) 0) = V3 (vx (Q v)) (vy (Q v)) 0.
Proof.
  intros HQ A v. replace (V3 (vx v) (vy v) 0) with (vsub v (V3 0 0 (vz v))) by (apply vec_eq; cbn; ring). rewrite (axis_sub Q d HQ), (about_up Q d HQ A). apply vec_eq; cbn; rewrite ?(A v); ring.
Qed.
Lemma about_radius Q d : axis_map Q d -> about_axis Q -> forall v, norm_2d (vx (Q v)) (vy (Q v)) = norm_2d (vx v) (vy v).
Proof.
  intros HQ A v. pose proof (axis_dot Q d HQ v v) as D. unfold dot in D. rewrite (A v) in D. unfold norm_2d. f_equal. lra.
Qed.
Lemma about_build Q d : axis_map Q d -> about_axis Q -> forall p k e, V3 (k * vx (Q p)) (k * vy (Q p)) e = Q (V3 (k * vx p) (k * vy p) e).
Proof.
  intros HQ A p k e. destruct (axis_linear Q d HQ) as [Add Sc].
  replace (V3 (k * vx p) (k * vy p) e) with (vadd (vscale k (V3 (vx p) (vy p) 0)) (V3 0 0 e)) by vec_ring. rewrite Add, Sc, (about_up Q d HQ A), (about_flat Q d HQ A). vec_ring.
Qed.
Lemma about_cylinder Q d : axis_map Q d -> about_axis Q -> forall p Er Ez, from_cylinder (Q p) Er Ez = Q (from_cylinder p Er Ez).
Proof.
  intros HQ A p Er Ez. unfold from_cylinder. cbv zeta. rewrite (about_radius Q d HQ A). destruct (Rle_dec _ _).
  - set (n := norm_2d (vx p) (vy p)). replace (V3 (vx p / n * Er) (vy p / n * Er) Ez) with (V3 (Er / n * vx p) (Er / n * vy p) Ez) by (apply vec_eq; cbn; unfold Rdiv; ring).
    rewrite <- (about_build Q d HQ A). apply vec_eq; cbn; unfold Rdiv; ring.
  - symmetry. apply (about_up Q d HQ A).
Qed.
Lemma about_field_radial Q d c : axis_map Q d -> about_axis Q -> forall p, field_radial (Q p) c = Q (field_radial p c).
Proof. intros HQ A p. unfold field_radial. cbv zeta. rewrite (about_radius Q d HQ A), (A p). apply (about_cylinder Q d HQ A). Qed.
Lemma about_current Q d c : axis_map Q d -> about_axis Q -> forall p, current_field (Q p) c = Q (current_field p c).
Proof. intros HQ A p. unfold current_field. cbv zeta. rewrite (about_radius Q d HQ A), (A p). apply (about_cylinder Q d HQ A). Qed.
Lemma about_axial Q d : axis_map Q d -> about_axis Q -> forall elec a p, axial_field elec a (Q p) = rmap Q (axial_field elec a p).
Proof.
  intros HQ A elec a p. unfold axial_field, field_radial_derivs. rewrite (A p). destruct (series_derivs _ _ _) as [[D|]|]; [| |reflexivity]; cbn [bind rmap]; f_equal.
  - unfold field_series. cbv zeta. rewrite (about_radius Q d HQ A). set (k := 0.5 * _). set (e := - D 1%nat + _ - _ + _).
    replace (V3 (vx p * k) (vy p * k) e) with (V3 (k * vx p) (k * vy p) e) by (apply vec_eq; cbn; ring). rewrite <- (about_build Q d HQ A). apply vec_eq; cbn; ring.
  - symmetry. apply (axis_zero Q d HQ).
Qed.
Lemma vadd_0 v : vadd v vzero = v. Proof. unfold vzero; vec_ring. Qed.

(** ** Planes through the axis *)
Definition in_plane (n : vec3) (s : state) : Prop := dot n (s_pos s) = 0 /\ dot n (s_vel s) = 0.
Section Plane.
Context (n : vec3) (field : field_fun) (Hf : forall s F, in_plane n s -> field s = Ok F -> dot n F = 0).
Lemma plane_add a b : in_plane n a -> in_plane n b -> in_plane n (sadd a b).
Proof. intros [A B] [C D]. unfold dot in *. split; cbn; unfold dot; cbn; lra. Qed.
Lemma plane_scale k a : in_plane n a -> in_plane n (sscale k a).
Proof. intros [A B]. split; cbn [sscale s_pos s_vel]; [rewrite <- (Rmult_0_r k), <- A|rewrite <- (Rmult_0_r k), <- B]; unfold dot, vscale; cbn; ring. Qed.
Lemma plane_accumulate l : forall ks y, in_plane n y -> Forall (in_plane n) ks -> in_plane n (accumulate y l ks).
Proof.
  unfold accumulate. induction l as [|x l IH]; intros [|k ks] y Hy Hk; cbn [combine fold_left]; [assumption..|]. inversion Hk; subst. apply IH; [|assumption].
  apply plane_add; [exact Hy|]. apply plane_scale. assumption.
Qed.
Lemma plane_k h y k : in_plane n y -> produce_new_k field h y = Ok k -> in_plane n k.
Proof.
  intros Hy H. unfold produce_new_k in H. apply bind_ok in H. destruct H as (F & HF & H). injection H as <-. pose proof (Hf y F Hy HF) as Z. destruct Hy as [_ V]. split; cbn [s_pos s_vel].
  - rewrite <- (Rmult_0_r h), <- V. unfold dot, vscale; cbn; ring.
  - rewrite <- (Rmult_0_r (h * EM)), <- Z. unfold dot, vscale; cbn -[EM]; ring.
Qed.
Lemma plane_stages h y : in_plane n y -> forall bs ks r, Forall (in_plane n) ks -> stages field h y bs ks = Ok r -> Forall (in_plane n) r.
Proof.
  intros Hy. induction bs as [|b bs IH]; intros ks r Hk H; cbn [stages] in H; [injection H as <-; exact Hk|]. apply bind_ok in H. destruct H as (k & H1 & H).
  apply (IH _ _ (proj2 (Forall_app _ _ _) (conj Hk (Forall_cons _ (plane_k h _ k (plane_accumulate b ks y Hy Hk) H1) (Forall_nil _)))) H).
Qed.
Lemma plane_step h y ks : in_plane n y -> rk_stages field h y = Ok ks -> in_plane n (step_state y ks).
Proof. intros Hy H. unfold step_state. apply plane_accumulate; [exact Hy|]. apply (plane_stages h y Hy _ [] ks (Forall_nil _) H). Qed.
End Plane.
Lemma plane_cylinder n p Er Ez : vz n = 0 -> dot n p = 0 -> dot n (from_cylinder p Er Ez) = 0.
Proof.
  intros Z H. unfold from_cylinder. cbv zeta. destruct (Rle_dec _ _); unfold dot in *; cbn; rewrite Z in *; [|ring].
  replace (vx n * (vx p / norm_2d (vx p) (vy p) * Er) + vy n * (vy p / norm_2d (vx p) (vy p) * Er) + 0 * Ez) with ((vx n * vx p + vy n * vy p + 0 * vz p) * (Er / norm_2d (vx p) (vy p))) by (unfold Rdiv; ring).
  rewrite H. ring.
Qed.
(** No magnet and no coil: the force is the electric field. *)
Lemma evaluate_none K c : q_items c = [] -> evaluate K c = 0.
Proof. intros H. unfold evaluate. rewrite H. reflexivity. Qed.
Lemma cylinder_zero p : from_cylinder p 0 0 = vzero.
Proof. unfold from_cylinder. cbv zeta. destruct (Rle_dec _ _); unfold vzero; apply vec_eq; cbn; unfold Rdiv; ring. Qed.
Lemma not_magnetic f : bem_is_magnetostatic f = false -> q_items (b_mag f) = [] /\ q_items (b_cur f) = [].
Proof. unfold bem_is_magnetostatic. destruct (q_items (b_mag f)), (q_items (b_cur f)); cbn; intros H; try discriminate; split; reflexivity. Qed.
Lemma no_magnetic_field f p : bem_is_magnetostatic f = false -> magnetostatic_field_at_point f p = vzero.
Proof.
  intros H. destruct (not_magnetic f H) as [M C]. unfold magnetostatic_field_at_point. destruct (b_class f).
  - unfold current_field, field_radial. cbv zeta. rewrite !(evaluate_none _ _ M), !(evaluate_none _ _ C), !Ropp_0, cylinder_zero. unfold vzero; vec_ring.
  - unfold field_3d. rewrite !(evaluate_none _ _ M), Ropp_0. reflexivity.
Qed.
Lemma radial_force f s F : b_class f = FieldRadialBEM -> bem_is_magnetostatic f = false -> tracer_field f s = Ok F ->
  F = vzero \/ F = field_radial (s_pos s) (b_elec f).
Proof.
  intros Cl M H. pose proof (no_magnetic_field f (s_pos s) M) as Z. unfold magnetostatic_field_at_point in Z. rewrite Cl in Z. unfold tracer_field in H. rewrite Cl in H. unfold field_radial_traceable in H. cbv zeta in H.
  match type of H with context [if ?b then _ else _] => destruct b end; injection H as <-; [right|left; reflexivity].
  rewrite combine_total, Z. unfold combine_elec_magnetic_field, vzero. apply vec_eq; cbn -[MU_0 field_radial]; ring.
Qed.
Lemma axial_plane n elec a p F : vz n = 0 -> dot n p = 0 -> axial_field elec a p = Ok F -> dot n F = 0.
Proof.
  intros Z H E. unfold axial_field, field_radial_derivs in E. apply bind_ok in E. destruct E as (D & _ & E). injection E as <-. destruct D as [D|]; [|unfold dot, vzero; cbn; ring].
  unfold field_series. cbv zeta. set (k := 0.5 * _). unfold dot in *. cbn. rewrite Z in *. replace (vx n * (vx p * k) + vy n * (vy p * k) + 0 * _) with ((vx n * vx p + vy n * vy p + 0 * vz p) * k) by ring. rewrite H. ring.
Qed.

(** ** Crossing a turned plane *)
Section Crossing.
Context (Q : vec3 -> vec3) (d : R) (c : vec3) (HQ : axis_map Q d).
Lemma kappa_dot p0 n p : kappa p0 n p = dot n (vsub p0 p) / norm n.
Proof. unfold kappa. f_equal. unfold dot, vsub; cbn; ring. Qed.
Lemma kappa_turned p0 n p : kappa (vadd (Q p0) c) (Q n) (vadd (Q p) c) = kappa p0 n p.
Proof.
  rewrite !kappa_dot. replace (vsub (vadd (Q p0) c) (vadd (Q p) c)) with (vsub (Q p0) (Q p)) by vec_ring. rewrite <- (axis_sub Q d HQ), (axis_dot Q d HQ), (axis_norm Q d HQ). reflexivity.
Qed.
Lemma turned_plane_loop p0 n l : forall next,
  plane_loop (vadd (Q p0) c) (Q n) (turned Q c next) (map (turned Q c) l) = option_map (turned Q c) (plane_loop p0 n next l).
Proof.
  destruct (axis_linear Q d HQ) as [Add Sc].
  induction l as [|s l IH]; intros next; [reflexivity|]. cbn [map plane_loop]. cbv zeta. cbn [turned s_pos]. rewrite !kappa_turned.
  set (k := kappa p0 n (s_pos s)). set (k' := kappa p0 n (s_pos next)).
  destruct (Bool.eqb (ltb 0 k) (ltb 0 k')) eqn:E; [apply IH|]. cbn [option_map]. f_equal.
  assert (N : k - k' <> 0). { intros Z. assert (k = k') as X by lra. rewrite X, Bool.eqb_reflx in E. discriminate. }
  unfold turned, sadd, sscale. cbn [s_pos s_vel]. rewrite !Add, !Sc. f_equal. apply vec_eq; cbn; field; exact N.
Qed.
Lemma turned_plane l p0 n : plane_intersection (map (turned Q c) l) (vadd (Q p0) c) (Q n) = rmap (turned Q c) (plane_intersection l p0 n).
Proof.
  unfold plane_intersection. rewrite <- map_rev. destruct (rev l) as [|a [|b m]]; [reflexivity..|]. cbn [map].
  pose proof (turned_plane_loop p0 n (b :: m) a) as H. cbn [map] in H. rewrite H. destruct (plane_loop p0 n a (b :: m)); reflexivity.
Qed.
End Crossing.
