(** Property theorems about rigid motions and geometric kernels: C11, C12, C13, C16, C47. *)
From Coq Require Import Reals Lra Lia Permutation QArith Qreals.
From Coquelicot Require Import Coquelicot.
From Verif Require Import Base Float64 OrientModel MeshSpec BaseFacts Vec GeomModel GeomFacts.
From Verif Require Import OrientFacts MeshFacts OrientConsist OutwardSpec OutwardFacts Tables QuadModel QuadFacts.
Local Open Scope R_scope.

(** ** C11 Normals point outward: the tests and the orientation of one connected piece *)
(** The number whose sign the code tests is the enclosed oriented area (volume), which does not
    depend on where the shape is placed and changes sign when all elements are reversed. *)
Theorem C11_line_test pos (els : list row) c :
  (forall r, In r els -> (length r = 2 \/ length r = 4)%nat /\ planar_line pos r) -> closed_loop els ->
  line_outward_sum pos els = signed_area pos els /\
  signed_area (fun i => vadd (pos i) c) els = signed_area pos els /\
  closed_loop (map reversed_line els) /\
  signed_area pos (map reversed_line els) = - signed_area pos els.
Proof.
  intros H Hc.
  assert (Hw : Forall (fun r : row => length r = 2 \/ length r = 4)%nat els)
    by (apply Forall_forall; intros r Hr; apply (H r Hr)).
  split; [apply line_sum_area; [|assumption]; intros r Hr; destruct (H r Hr); split; [lia|assumption]|].
  split.
  - rewrite <- (signed_area_translate _ c els Hc). unfold signed_area. apply Rsum_ext. intros r _. simpl. field.
  - split; [apply closed_loop_reverse; assumption|apply signed_area_reverse; assumption].
Qed.
Print Assumptions C11_line_test.

Theorem C11_triangle_test pos (els : list row) c :
  (forall r, In r els -> proper_area pos r) -> closed_surface els ->
  triangle_outward_sum pos els = signed_volume pos els /\
  signed_volume (fun i => vadd (pos i) c) els = signed_volume pos els /\
  signed_volume pos (map reversed_triangle els) = - signed_volume pos els.
Proof.
  intros H Hc.
  assert (Hw : Forall (fun r : row => length r = 3%nat) els).
  { apply Forall_forall. intros r Hr. apply H in Hr. destruct r as [|x [|y [|z [|w r]]]]; simpl in Hr; tauto. }
  split; [apply triangle_sum_volume; assumption|]. split; [|apply signed_volume_reverse; assumption].
  rewrite <- (signed_volume_translate pos (vneg c) els Hw Hc). unfold signed_volume. apply Rsum_ext.
  intros r Hr. rewrite Forall_forall in Hw. apply Hw in Hr.
  destruct r as [|x [|y [|z [|w r]]]]; simpl in Hr; try lia. simpl.
  unfold det3, dot, cross, vsub, vadd, vneg, vzero; simpl. field.
Qed.
Print Assumptions C11_triangle_test.

(** Orienting one connected piece: a closed loop of non-zero area encloses positive area
    afterwards (negative area for the inward variant), whatever the order and directions of the
    given lines.  [pos] gives the positions the floating point test is applied to. *)
Theorem C11_line_orientation o pts pos outwards (els els' : list row) :
  (forall l, o_line_outwards o pts l = line_outwards pos l) ->
  all_width 2 els || all_width 4 els = true ->
  (forall v, degree els v = 0 \/ degree els v = 2)%nat -> inner_points_free els -> ends_connected els ->
  (forall r, In r els -> planar_line pos r) ->
  ensure_line_orientation o pts outwards els = Ok els' ->
  closed_loop els' /\ head_to_tail els' /\
  (signed_area pos els' <> 0 ->
   if outwards then 0 < signed_area pos els' else signed_area pos els' < 0).
Proof. exact (ensure_line_outward o pts pos outwards els els'). Qed.
Print Assumptions C11_line_orientation.

Theorem C11_triangle_orientation o pts pos outwards (els els' : list row) :
  (forall l, o_tri_outwards o pts l = triangle_outwards pos l) ->
  Forall proper_triangle els -> comparison_ok o pts els ->
  (exists ref, Forall2 tri_sf els ref /\ opposite_edges ref) ->
  (forall i, (i < length els)%nat -> edge_connected els 0 i) -> every_edge_shared els ->
  (forall r, In r els -> proper_area pos r) ->
  ensure_triangle_orientation o pts outwards els = Ok els' ->
  closed_surface els' /\ opposite_edges els' /\
  (signed_volume pos els' <> 0 ->
   if outwards then 0 < signed_volume pos els' else signed_volume pos els' < 0).
Proof. exact (ensure_triangle_outward o pts pos outwards els els'). Qed.
Print Assumptions C11_triangle_orientation.

(** Positive area (volume) means that normals point away from the inside: for shapes all of
    whose elements face the same way as seen from a point [c]. *)
Theorem C11_positive_is_outward pos c (els : list row) :
  els <> [] ->
  (closed_loop els ->
   (forall r, In r els -> line_away pos c r) \/ (forall r, In r els -> line_towards pos c r) ->
   0 < signed_area pos els -> forall r, In r els -> line_away pos c r) /\
  (closed_surface els -> (forall r, In r els -> proper_area pos r) ->
   (forall r, In r els -> 0 < tri_side pos c r) \/ (forall r, In r els -> tri_side pos c r < 0) ->
   0 < signed_volume pos els -> forall r, In r els -> 0 < tri_side pos c r).
Proof.
  intros Hne. split; intros; [apply (star_outward pos c els); assumption|].
  apply (star_outward_3d pos c els); assumption.
Qed.
Print Assumptions C11_positive_is_outward.

(** A triangle loop in the plane and the oracle that runs the modelled test. *)
Definition ex_pos (i : nat) : vec3 :=
  match i with 0%nat => V3 1 0 1 | 1%nat => V3 3 0 1 | 2%nat => V3 1 0 4 | _ => V3 2 5 2 end.
Definition ex_loop : list row := [[0; 1]; [2; 1]; [2; 0]]%nat.
Definition test_oracle : oracles :=
  {| o_degenerate := fun _ _ _ => false; o_tri_equal := fun _ _ _ => 0%Z;
     o_tri_outwards := fun _ l => triangle_outwards ex_pos l;
     o_line_outwards := fun _ l => line_outwards ex_pos l; o_junk := fun _ => 0%nat |}.

Example C11_nonvacuous :
  all_width 2 ex_loop || all_width 4 ex_loop = true /\
  (forall v, degree ex_loop v = 0 \/ degree ex_loop v = 2)%nat /\
  inner_points_free ex_loop /\ ends_connected ex_loop /\
  (forall r, In r ex_loop -> planar_line ex_pos r) /\
  (exists els', ensure_line_orientation test_oracle [] true ex_loop = Ok els') /\
  signed_area ex_pos [[0; 1]; [1; 2]; [2; 0]]%nat = 3 /\
  (let tet := [[0; 2; 1]; [0; 1; 3]; [1; 2; 3]; [2; 0; 3]]%nat in
   closed_surface tet /\ (forall r, In r tet -> proper_area ex_pos r)).
Proof.
  split; [reflexivity|]. split.
  { intros v. unfold degree, ex_loop.
    destruct v as [|[|[|v]]]; [right; reflexivity|right; reflexivity|right; reflexivity|left; reflexivity]. }
  split.
  { intros i j r s v Hr Hs Hv. exfalso. apply nth_error_In in Hr.
    destruct Hr as [<-|[<-|[<-|[]]]]; simpl in Hv; exact Hv. }
  split.
  { assert (S : forall i j a b v, nth_error (map (firstn 2) ex_loop) i = Some a ->
                nth_error (map (firstn 2) ex_loop) j = Some b -> In v a -> In v b ->
                connected (map (firstn 2) ex_loop) i j).
    { intros. apply Relation_Operators.rt_step. exists a, b, v. auto. }
    intros i Hi. destruct i as [|[|[|i]]]; simpl in Hi; try lia.
    + apply Relation_Operators.rt_refl.
    + apply (S 0 1 [0;1] [2;1] 1)%nat; simpl; auto.
    + apply (S 0 2 [0;1] [2;0] 0)%nat; simpl; auto. }
  split.
  { intros r [<-|[<-|[<-|[]]]]; unfold planar_line; simpl; repeat split; try lra;
      intros E; injection E; intros; lra. }
  split.
  { unfold ensure_line_orientation.
    assert (E : reorient_lines ex_loop = Ok [[1; 0]; [2; 1]; [0; 2]]%nat) by (vm_compute; reflexivity).
    rewrite E. cbn [bind]. destruct (Bool.eqb _ _); [eexists; reflexivity|]. eexists. vm_compute. reflexivity. }
  split; [unfold signed_area; simpl; field|].
  cbv zeta. split.
  - unfold closed_surface. simpl.
    apply NoDup_Permutation; [| |].
    + repeat constructor; simpl; intuition discriminate.
    + repeat constructor; simpl; intuition discriminate.
    + intros [a b]; simpl; intuition.
  - assert (P : forall a b c, dot (cross (vsub b a) (vsub c a)) (cross (vsub b a) (vsub c a)) <> 0 ->
               triangle_area a b c <> 0).
    { intros a b c H E. apply H. rewrite <- norm_sq. unfold triangle_area in E.
      replace (norm (cross (vsub b a) (vsub c a))) with 0 by lra. ring. }
    intros r [<-|[<-|[<-|[<-|[]]]]]; simpl; apply P; unfold dot, cross, vsub; simpl; lra.
Qed.

(** ** C12 Moving, rotating and mirroring are rigid motions *)
Definition rigid (f : vec3 -> vec3) : Prop := forall p q, dist3 (f p) (f q) = dist3 p q.

Theorem C12_rotate a angle origin : angle <> 0 ->
  exists F f, rotate_about a angle origin = Ok F /\ (forall p, F p = Ok (f p)) /\
    rigid f /\
    (* the axis through the origin is fixed *)
    (forall t, f (vadd origin (vscale t (unit_of a))) = vadd origin (vscale t (unit_of a))) /\
    (* a vector perpendicular to the axis turns counter clockwise by the angle *)
    (forall u, dot u (unit_of a) = 0 ->
       f (vadd origin u) = vadd origin (vadd (vscale (cos angle) u)
                                             (vscale (sin angle) (cross (unit_of a) u)))).
Proof.
  intros H. destruct (rotate_rodrigues a angle origin H) as (F & HF & Hf).
  exists F, (rodrigues (unit_of a) angle origin). split; [exact HF|]. split; [exact Hf|].
  split; [intros p q; apply rodrigues_isometry, unit_of_unit|].
  split; [intros t; apply rodrigues_axis, unit_of_unit|].
  intros u Hu. unfold rodrigues.
  replace (vsub (vadd origin u) origin) with u by vec_ring.
  rewrite dot_comm in Hu. rewrite Hu. vec_ring.
Qed.
Print Assumptions C12_rotate.

Theorem C12_angles_add_up ax a b origin : a <> 0 -> b <> 0 ->
  exists F G, rotate_about ax a origin = Ok F /\ rotate_about ax b origin = Ok G /\
    (a + b <> 0 -> exists H, rotate_about ax (a + b) origin = Ok H /\
        forall p q r, G p = Ok q -> F q = Ok r -> H p = Ok r) /\
    (a + b = 0 -> forall p q r, G p = Ok q -> F q = Ok r -> r = p).
Proof.
  intros Ha Hb. destruct (rotate_rodrigues ax a origin Ha) as (F & HF & Hf).
  destruct (rotate_rodrigues ax b origin Hb) as (G & HG & Hg). exists F, G.
  split; [exact HF|]. split; [exact HG|]. split.
  - intros Hab. destruct (rotate_rodrigues ax (a + b) origin Hab) as (H & HH & Hh). exists H.
    split; [exact HH|]. intros p q r H1 H2. rewrite Hg in H1. injection H1 as <-. rewrite Hf in H2.
    injection H2 as <-. rewrite Hh, rodrigues_add by apply unit_of_unit. reflexivity.
  - intros Hab p q r H1 H2. rewrite Hg in H1. injection H1 as <-. rewrite Hf in H2. injection H2 as <-.
    rewrite rodrigues_add by apply unit_of_unit. rewrite Hab. apply rodrigues_0.
Qed.
Print Assumptions C12_angles_add_up.

Theorem C12_two_angles_are_rejected Rx Ry Rz origin :
  (Rx <> 0 /\ Ry <> 0) \/ (Rx <> 0 /\ Rz <> 0) \/ (Ry <> 0 /\ Rz <> 0) ->
  rotate Rx Ry Rz origin = Err AssertionError.
Proof. exact (rotate_two_axes Rx Ry Rz origin). Qed.
Print Assumptions C12_two_angles_are_rejected.

Theorem C12_move_and_mirror d :
  rigid (move d) /\ (forall p, move (vneg d) (move d p) = p) /\
  (forall p, vsub (move d p) p = d) /\
  rigid mirror_xz /\ rigid mirror_yz /\ rigid mirror_xy /\
  (forall p, mirror_xz (mirror_xz p) = p /\ mirror_yz (mirror_yz p) = p /\ mirror_xy (mirror_xy p) = p) /\
  (forall p, (vy p = 0 -> mirror_xz p = p) /\ (vx p = 0 -> mirror_yz p = p) /\ (vz p = 0 -> mirror_xy p = p)) /\
  (forall p, vy (mirror_xz p) = - vy p /\ vx (mirror_yz p) = - vx p /\ vz (mirror_xy p) = - vz p).
Proof.
  split; [intros p q; unfold dist3; f_equal; vec_ring|].
  split; [intros p; vec_ring|]. split; [intros p; vec_ring|].
  split; [intros p q; apply norm_eq; unfold dot; simpl; ring|].
  split; [intros p q; apply norm_eq; unfold dot; simpl; ring|].
  split; [intros p q; apply norm_eq; unfold dot; simpl; ring|].
  split; [intros p; split; [vec_ring|split; vec_ring]|].
  split.
  - intros [x y z]; simpl. repeat split; intros ->; vec_ring.
  - intros p; repeat split; reflexivity.
Qed.
Print Assumptions C12_move_and_mirror.

Example C12_nonvacuous :
  (* a quarter turn about z takes ex to ey, about x takes ey to ez, about y takes ez to ex *)
  (exists F, rotate_about AxisZ (PI/2) vzero = Ok F /\ F ex = Ok ey) /\
  (exists F, rotate_about AxisX (PI/2) vzero = Ok F /\ F ey = Ok ez) /\
  (exists F, rotate_about AxisY (PI/2) vzero = Ok F /\ F ez = Ok ex).
Proof.
  assert (PI / 2 <> 0) by (pose proof PI_RGT_0; lra).
  split; [|split].
  - destruct (rotate_rodrigues AxisZ (PI/2) vzero H) as (F & HF & Hf). exists F. split; [exact HF|].
    rewrite Hf. f_equal. unfold rodrigues. rewrite cos_PI2, sin_PI2. apply vec_eq; unfold dot, cross; simpl; ring.
  - destruct (rotate_rodrigues AxisX (PI/2) vzero H) as (F & HF & Hf). exists F. split; [exact HF|].
    rewrite Hf. f_equal. unfold rodrigues. rewrite cos_PI2, sin_PI2. apply vec_eq; unfold dot, cross; simpl; ring.
  - destruct (rotate_rodrigues AxisY (PI/2) vzero H) as (F & HF & Hf). exists F. split; [exact HF|].
    rewrite Hf. f_equal. unfold rodrigues. rewrite cos_PI2, sin_PI2. apply vec_eq; unfold dot, cross; simpl; ring.
Qed.

(** ** C13 Rotating by zero *)
(** False of the code: without any non-zero angle every point raises NameError. *)
Theorem C13_refuted : forall origin p, exists F, rotate 0 0 0 origin = Ok F /\ F p = Err NameError.
Proof.
  intros origin p. destruct (rotate_zero origin) as (F & HF & Hf). exists F. split; [exact HF|apply Hf].
Qed.
Print Assumptions C13_refuted.

(** Every non-zero angle is accepted and maps every point. *)
Theorem C13_nonzero_partial a angle origin : angle <> 0 ->
  exists F, rotate_about a angle origin = Ok F /\ forall p, exists q, F p = Ok q.
Proof.
  intros H. destruct (rotate_rodrigues a angle origin H) as (F & HF & Hf). exists F.
  split; [exact HF|]. intros p. eexists. apply Hf.
Qed.
Print Assumptions C13_nonzero_partial.

(** ** C16 Raising straight lines to higher order *)
(** A cubic line element with end points [p0], [p1] and inner points [p2], [p3] (in the order in
    which the solver stores them) at parameter [s] in [-1, 1]. *)
Definition cubic_at (s : R) (p0 p1 p2 p3 : vec3) : R * R := position_radial s p0 p2 p3 p1.

Lemma higher_order_rows {P} (f g : P -> P -> P) points (els : list row) pts' els' :
  lines_to_higher_order f g points els = Ok (pts', els') ->
  (forall i p, nth_error points i = Some p -> nth_error pts' i = Some p) /\
  length els' = length els /\
  forall k r, nth_error els k = Some r -> exists v0 v1 i j a b,
    r = [v0; v1] /\ nth_error els' k = Some [v0; v1; i; j] /\
    nth_error points v0 = Some a /\ nth_error points v1 = Some b /\
    nth_error pts' i = Some (f a b) /\ nth_error pts' j = Some (g a b).
Proof.
  unfold lines_to_higher_order. intros H.
  apply bind_ok in H. destruct H as (ends & He & H). apply bind_ok in H. destruct H as (p2 & H2 & H).
  apply bind_ok in H. destruct H as (p3 & H3 & H). injection H as <- <-.
  apply mapM_ok in He, H2, H3.
  assert (L1 : length els = length ends) by (eapply Forall2_length; exact He).
  assert (L2 : length ends = length p2) by (eapply Forall2_length; exact H2).
  assert (L3 : length ends = length p3) by (eapply Forall2_length; exact H3).
  split; [intros i p Hi; rewrite nth_error_app1; [assumption|apply nth_error_Some; congruence]|].
  assert (M : forall k e, nth_error ends k = Some e ->
     nth_error (map2 (fun e i => [fst e; snd e; (length points + i)%nat; (length points + length els + i)%nat])
                 ends (arange (length els))) k =
     Some [fst e; snd e; (length points + k)%nat; (length points + length els + k)%nat]).
  { rewrite L1. clear. unfold arange.
    generalize (length points + length ends)%nat as N. intros N.
    assert (G : forall (l : list (nat * nat)) s k e, nth_error l k = Some e ->
      nth_error (map2 (fun e i => [fst e; snd e; (length points + i)%nat; (N + i)%nat]) l (seq s (length l))) k
      = Some [fst e; snd e; (length points + (s + k))%nat; (N + (s + k))%nat]).
    { induction l as [|x l IH]; intros s [|k] e E; simpl in E |- *; try discriminate.
      - injection E as ->. rewrite !Nat.add_0_r. reflexivity.
      - rewrite (IH (S s) k e E). replace (S s + k)%nat with (s + S k)%nat by lia. reflexivity. }
    intros k e E. rewrite (G ends 0%nat k e E). reflexivity. }
  split.
  - assert (L : forall (A B C : Type) (h : A -> B -> C) l m, length l = length m -> length (map2 h l m) = length l).
    { clear. induction l as [|x l IH]; intros [|y m] E; simpl in *; try discriminate; [reflexivity|].
      f_equal. apply IH. congruence. }
    rewrite L; [congruence|]. unfold arange. rewrite seq_length. congruence.
  - intros k r Hr.
    destruct (Forall2_nth_l _ _ _ _ _ He Hr) as ([v0 v1] & Hk & Hrow).
    destruct r as [|a [|b [|c r]]]; try discriminate. injection Hrow as -> ->.
    destruct (Forall2_nth_l _ _ _ _ _ H2 Hk) as (x & Hx & Ex).
    destruct (Forall2_nth_l _ _ _ _ _ H3 Hk) as (y & Hy & Ey). simpl in Ex, Ey.
    apply bind_ok in Ex. destruct Ex as (a & Ea & Ex). apply bind_ok in Ex. destruct Ex as (b & Eb & Ex).
    injection Ex as <-.
    apply bind_ok in Ey. destruct Ey as (a' & Ea' & Ey). apply bind_ok in Ey. destruct Ey as (b' & Eb' & Ey).
    injection Ey as <-. rewrite Ea in Ea'. injection Ea' as <-. rewrite Eb in Eb'. injection Eb' as <-.
    unfold np_get in Ea, Eb. destruct (nth_error points v0) eqn:E0; [|discriminate].
    destruct (nth_error points v1) eqn:E1; [|discriminate]. injection Ea as ->. injection Eb as ->.
    exists v0, v1, (length points + k)%nat, (length points + length els + k)%nat, a, b.
    split; [reflexivity|]. split; [apply (M k (v0, v1) Hk)|]. split; [assumption|]. split; [assumption|].
    split.
    + rewrite nth_error_app2 by lia. rewrite nth_error_app1.
      * replace (length points + k - length points)%nat with k by lia. exact Hx.
      * apply nth_error_Some. replace (length points + k - length points)%nat with k by lia. congruence.
    + rewrite nth_error_app2 by lia. rewrite nth_error_app2 by lia.
      replace (length points + length els + k - length points - length p2)%nat with k by lia. exact Hy.
Qed.

Theorem C16_higher_order_lines points (els : list row) pts' els' :
  lines_to_higher_order p13_R p23_R points els = Ok (pts', els') ->
  (forall i p, nth_error points i = Some p -> nth_error pts' i = Some p) /\
  length els' = length els /\
  forall k r, nth_error els k = Some r -> exists v0 v1 i j a b p2 p3,
    r = [v0; v1] /\ nth_error els' k = Some [v0; v1; i; j] /\
    nth_error points v0 = Some a /\ nth_error points v1 = Some b /\
    nth_error pts' i = Some p2 /\ nth_error pts' j = Some p3 /\
    p2 = vadd a (vscale (1/3) (vsub b a)) /\ p3 = vadd a (vscale (2/3) (vsub b a)) /\
    (* the cubic element is the straight segment, traversed with constant speed *)
    (forall s, cubic_at s a b p2 p3 =
       (vx a + (1 + s) / 2 * (vx b - vx a), vz a + (1 + s) / 2 * (vz b - vz a))) /\
    (forall s, jacobian_radial s a p2 p3 b = sqrt ((vx b - vx a) ^ 2 + (vz b - vz a) ^ 2) / 2).
Proof.
  intros H. apply higher_order_rows in H. destruct H as (H1 & H2 & H3). split; [exact H1|]. split; [exact H2|].
  intros k r Hr. destruct (H3 k r Hr) as (v0 & v1 & i & j & a & b & E1 & E2 & E3 & E4 & E5 & E6).
  exists v0, v1, i, j, a, b, (p13_R a b), (p23_R a b). repeat (split; [first [assumption|reflexivity]|]).
  split.
  - intros s. unfold cubic_at, position_radial, cubic_coord, p13_R, p23_R. simpl. f_equal; field.
  - intros s. unfold jacobian_radial.
    replace (cubic_deriv16 s (vz a) (vz (p13_R a b)) (vz (p23_R a b)) (vz b)) with (8 * (vz b - vz a))
      by (unfold cubic_deriv16, p13_R, p23_R; simpl; field).
    replace (cubic_deriv16 s (vx a) (vx (p13_R a b)) (vx (p23_R a b)) (vx b)) with (8 * (vx b - vx a))
      by (unfold cubic_deriv16, p13_R, p23_R; simpl; field).
    replace ((8 * (vz b - vz a)) ^ 2 + (8 * (vx b - vx a)) ^ 2)
      with (8 * 8 * ((vx b - vx a) ^ 2 + (vz b - vz a) ^ 2)) by ring.
    rewrite sqrt_mult; [|lra|apply Rplus_le_le_0_compat; apply pow2_ge_0].
    rewrite sqrt_square by lra. field.
Qed.
Print Assumptions C16_higher_order_lines.

(** The jacobian used for a (possibly curved) element is the speed of the parametrisation, which
    interpolates the four points. *)
Theorem C16_cubic_element p0 p1 p2 p3 :
  cubic_at (-1) p0 p1 p2 p3 = (vx p0, vz p0) /\ cubic_at (-1/3) p0 p1 p2 p3 = (vx p2, vz p2) /\
  cubic_at (1/3) p0 p1 p2 p3 = (vx p3, vz p3) /\ cubic_at 1 p0 p1 p2 p3 = (vx p1, vz p1) /\
  forall s, exists dx dz,
    is_derive (fun t => fst (cubic_at t p0 p1 p2 p3)) s dx /\
    is_derive (fun t => snd (cubic_at t p0 p1 p2 p3)) s dz /\
    jacobian_radial s p0 p2 p3 p1 = sqrt (dx ^ 2 + dz ^ 2) /\
    (dx <> 0 \/ dz <> 0 ->
     let '(nx, nz) := higher_order_normal_radial s p0 p2 p3 p1 in
     nx * dx + nz * dz = 0 /\ nx ^ 2 + nz ^ 2 = 1 /\ dz * nx - dx * nz > 0).
Proof.
  unfold cubic_at, position_radial.
  destruct (cubic_nodes (vx p0) (vx p2) (vx p3) (vx p1)) as (A1 & A2 & A3 & A4).
  destruct (cubic_nodes (vz p0) (vz p2) (vz p3) (vz p1)) as (B1 & B2 & B3 & B4).
  rewrite A1, A2, A3, A4, B1, B2, B3, B4. repeat (split; [reflexivity|]).
  intros s. set (dx := cubic_deriv16 s (vx p0) (vx p2) (vx p3) (vx p1) / 16).
  set (dz := cubic_deriv16 s (vz p0) (vz p2) (vz p3) (vz p1) / 16). exists dx, dz.
  split; [apply cubic_derivable|]. split; [apply cubic_derivable|]. split.
  - unfold jacobian_radial.
    replace (cubic_deriv16 s (vz p0) (vz p2) (vz p3) (vz p1)) with (16 * dz) by (unfold dz; field).
    replace (cubic_deriv16 s (vx p0) (vx p2) (vx p3) (vx p1)) with (16 * dx) by (unfold dx; field).
    replace ((16 * dz) ^ 2 + (16 * dx) ^ 2) with (16 * 16 * (dx ^ 2 + dz ^ 2)) by ring.
    rewrite sqrt_mult; [|lra|apply Rplus_le_le_0_compat; apply pow2_ge_0].
    rewrite sqrt_square by lra. field.
  - intros Hne. unfold higher_order_normal_radial, normal_2d. fold dx dz.
    replace (dz - 0) with dz by ring. replace (- (dx - 0)) with (- dx) by ring.
    unfold norm_2d.
    assert (P : 0 < dz * dz + - dx * - dx).
    { destruct Hne as [Hne|Hne]; apply Rsqr_pos_lt in Hne; unfold Rsqr in Hne.
      - pose proof (Rle_0_sqr dz). unfold Rsqr in *. lra.
      - pose proof (Rle_0_sqr dx). unfold Rsqr in *. lra. }
    set (l := sqrt _). assert (Hl : 0 < l) by (apply sqrt_lt_R0; exact P).
    assert (Hll : l * l = dz * dz + - dx * - dx) by (apply sqrt_sqrt; lra).
    split; [field; lra|]. split.
    + replace ((dz / l) ^ 2 + (- dx / l) ^ 2) with ((dz * dz + - dx * - dx) / (l * l)) by (field; lra).
      rewrite Hll. field. lra.
    + replace (dz * (dz / l) - dx * (- dx / l)) with ((dz * dz + - dx * - dx) / l) by (field; lra).
      rewrite <- Hll. unfold Rgt. apply Rdiv_lt_0_compat; [apply Rmult_lt_0_compat|]; assumption.
Qed.
Print Assumptions C16_cubic_element.

Example C16_nonvacuous :
  lines_to_higher_order p13_R p23_R [V3 0 0 0; V3 3 0 0; V3 3 0 6] [[0; 1]; [1; 2]]%nat =
  Ok ([V3 0 0 0; V3 3 0 0; V3 3 0 6; p13_R (V3 0 0 0) (V3 3 0 0); p13_R (V3 3 0 0) (V3 3 0 6);
       p23_R (V3 0 0 0) (V3 3 0 0); p23_R (V3 3 0 0) (V3 3 0 6)], [[0; 1; 3; 5]; [1; 2; 4; 6]]%nat).
Proof. reflexivity. Qed.

(** ** C47 Three dimensional geometry kernels *)
Theorem C47_normals a b c :
  (triangle_area a b c <> 0 -> norm (normal_3d a b c) = 1) /\
  dot (normal_3d a b c) (vsub b a) = 0 /\ dot (normal_3d a b c) (vsub c a) = 0 /\
  dot (normal_3d a b c) (vsub c b) = 0 /\
  normal_3d a c b = vneg (normal_3d a b c) /\
  (triangle_area a b c <> 0 ->
   cross (vsub b a) (vsub c a) = vscale (2 * triangle_area a b c) (normal_3d a b c)).
Proof.
  split; [apply normal_unit|]. destruct (normal_orth a b c) as (H1 & H2 & H3).
  repeat (split; [assumption|]). split; [apply normal_flip|apply normal_right_handed].
Qed.
Print Assumptions C47_normals.

Theorem C47_areas a b c :
  0 <= triangle_area a b c /\
  triangle_area a c b = triangle_area a b c /\ triangle_area b c a = triangle_area a b c /\
  (forall f, rigid f -> triangle_area (f a) (f b) (f c) = triangle_area a b c) /\
  (forall k, triangle_area (vscale k a) (vscale k b) (vscale k c) = k ^ 2 * triangle_area a b c) /\
  buffer_area a b c = triangle_area a b c.
Proof.
  split; [unfold triangle_area; pose proof (norm_nonneg (cross (vsub b a) (vsub c a))); lra|].
  split; [apply triangle_area_swap|]. split; [apply triangle_area_cycle|].
  split; [intros f Hf; apply triangle_area_isometry; exact Hf|]. split.
  - intros k. unfold triangle_area.
    replace (cross (vsub (vscale k b) (vscale k a)) (vsub (vscale k c) (vscale k a)))
      with (vscale (k ^ 2) (cross (vsub b a) (vsub c a))) by (apply vec_eq; unfold cross; simpl; ring).
    rewrite norm_scale, Rabs_pos_eq by apply pow2_ge_0. field.
  - unfold buffer_area, triangle_area, norm, cross. simpl.
    match goal with |- 1 / 2 * sqrt ?x = sqrt ?y / 2 => replace x with y by ring end. field.
Qed.
Print Assumptions C47_areas.

Lemma Rsum_map_scal {A} (f : A -> R) k l : Rsum (map (fun x => f x * k) l) = Rsum (map f l) * k.
Proof. induction l; simpl; [ring|]. rewrite IHl. ring. Qed.

Theorem C47_jacobians a b c p0 p1 p2 p3 :
  Rabs (Rsum (jacobian_buffer_3d a b c) - triangle_area a b c) <= 3 / 10 ^ 15 * triangle_area a b c /\
  length (jacobian_buffer_3d a b c) = length (position_buffer_3d a b c) /\
  (* every quadrature point is inside the triangle *)
  (forall p, In p (position_buffer_3d a b c) -> exists l m n,
     0 < l /\ 0 < m /\ 0 < n /\ l + m + n = 1 /\
     p = vadd (vscale l a) (vadd (vscale m b) (vscale n c))) /\
  length (jacobian_buffer_radial p0 p1 p2 p3) = 16%nat.
Proof.
  split; [|split; [reflexivity|split; [|reflexivity]]].
  - unfold jacobian_buffer_3d.
    rewrite (proj2 (proj2 (proj2 (proj2 (proj2 (C47_areas a b c)))))).
    rewrite Rsum_map_scal.
    assert (E : Rabs (Rsum (map (fun w => 2 * Q2R w) quad_weights) - 1) <= 3 / 10 ^ 15).
    { unfold quad_weights, Q2R; simpl. apply Rabs_le. lra. }
    replace (Rsum (map (fun x => 2 * Q2R x) quad_weights) * triangle_area a b c - triangle_area a b c)
      with ((Rsum (map (fun w => 2 * Q2R w) quad_weights) - 1) * triangle_area a b c) by ring.
    pose proof (proj1 (C47_areas a b c)) as P.
    rewrite Rabs_mult, (Rabs_pos_eq (triangle_area a b c)) by exact P.
    apply Rmult_le_compat_r; assumption.
  - intros p Hp. unfold position_buffer_3d, quad_b1, quad_b2 in Hp. cbn [map2] in Hp.
    cbn [In] in Hp.
    repeat (destruct Hp as [<-|Hp]; [
      match goal with |- context [Q2R ?x * (vx b - vx a) + Q2R ?y * (vx c - vx a)] => idtac
      | |- context [Q2R ?x * (vx b - vx a)] =>
        match goal with |- context [Q2R ?y * (vx c - vx a)] =>
          exists (1 - Q2R x - Q2R y), (Q2R x), (Q2R y)
        end
      end; unfold Q2R; simpl Qnum; simpl Qden;
      split; [lra|split; [lra|split; [lra|split; [lra|apply vec_eq; simpl; ring]]]]|]).
    contradiction.
Qed.
Print Assumptions C47_jacobians.

(** Points and jacobians of the elements: the point of a triangle with barycentric coordinates (1 - al - be, al, be);
    the k-th quadrature point of a line lies on its curve at the k-th node of the rule, with weight times speed. *)
Theorem C47_points a b c al be p0 p1 p2 p3 :
  position_3d al be a b c = vadd (vscale (1 - al - be) a) (vadd (vscale al b) (vscale be c)) /\
  jacobian_3d a b c = 2 * triangle_area a b c /\
  length (position_buffer_radial p0 p1 p2 p3) = 16%nat /\
  (forall k x w, nth_error gauss_points k = Some x -> nth_error gauss_weights k = Some w ->
     let curve := fun s => cubic_at s p0 p1 p2 p3 in
     nth_error (position_buffer_radial p0 p1 p2 p3) k = Some (curve (Q2R x)) /\
     nth_error (jacobian_buffer_radial p0 p1 p2 p3) k =
       Some (Q2R w * sqrt (Derive (fun s => fst (curve s)) (Q2R x) ^ 2 + Derive (fun s => snd (curve s)) (Q2R x) ^ 2))).
Proof.
  split; [apply vec_eq; unfold position_3d; cbn; ring|]. split; [reflexivity|]. split; [reflexivity|].
  intros k x w Hx Hw. cbv zeta. split; [unfold position_buffer_radial; rewrite nth_error_map, Hx; reflexivity|].
  unfold jacobian_buffer_radial. rewrite (map2_nth _ _ _ _ _ _ Hx Hw). do 2 f_equal. unfold cubic_at, position_radial. cbn [fst snd].
  assert (D : forall w1 w2 w3 w4 s, Derive (fun u => cubic_coord u w1 w2 w3 w4) s = cubic_deriv16 s w1 w2 w3 w4 / 16).
  { intros. apply is_derive_unique. unfold cubic_coord, cubic_deriv16. auto_derive; [exact I|]. field. }
  rewrite !D. unfold jacobian_radial. set (u := cubic_deriv16 _ (vx p0) _ _ _). set (v := cubic_deriv16 _ (vz p0) _ _ _).
  replace ((u / 16) ^ 2 + (v / 16) ^ 2) with (1 / 16 * (1 / 16) * (v ^ 2 + u ^ 2)) by field.
  rewrite sqrt_mult; [|lra|apply Rplus_le_le_0_compat; apply pow2_ge_0]. rewrite sqrt_square by lra. reflexivity.
Qed.
Print Assumptions C47_points.

Example C47_nonvacuous :
  triangle_area vzero ex ey = 1 / 2 /\ normal_3d vzero ex ey = ez.
Proof.
  assert (N : norm (cross (vsub ex vzero) (vsub ey vzero)) = 1).
  { apply norm_unique; [lra|]. unfold dot, cross, vsub; simpl. ring. }
  split; [unfold triangle_area; rewrite N; field|].
  rewrite normal_scale, raw_normal_cross, N. apply vec_eq; unfold cross, vsub; simpl; field.
Qed.
