(** The values of calls with well-formed arguments. *)
From Coq Require Import Reals Lra.
From Verif Require Import Base Vec GeomModel MemModel FieldModel SeriesModel Axial3DModel MatrixModel MemFacts BackendModel BackendSafe BackendValues BackendCalls.
From Verif Require TracingModel.
Local Open Scope R_scope.
Local Open Scope mem_scope.

(** an array of doubles of the given shape *)
Definition floats (h : heap) (a : ndarray) (shape : list nat) : Prop := array_ok h a /\ nd_shape a = shape /\ nd_dtype a = Float64.

Ltac climb E :=
  repeat match type of E with extends ?h ?h' =>
    match goal with
    | H : block h ?p ?t ?c |- _ => apply (extends_block h h' p t c E) in H
    | H : nth_error h ?n = Some ?b |- _ => apply (extends_nth h h' n b E) in H
    end end.
Ltac by_shape := first [apply shape_eqb_eq; reflexivity | unfold has_shape; apply shape_eqb_eq; assumption | unfold has_shape; apply shape_eqb_eq; congruence].
Ltac accepted :=
  match goal with
  | |- accepts (ByShape _ _) ?a = true => cbn [accepts]; unfold has_shape
  | |- accepts (ByDim _ _) ?a = true => cbn [accepts]
  | |- accepts v2 ?a = true => unfold v2; cbn [accepts]; unfold has_shape
  | |- accepts v3 ?a = true => unfold v3; cbn [accepts]; unfold has_shape
  | |- accepts (arr _) ?a = true => unfold arr; cbn [accepts]
  end;
  repeat match goal with E : nd_shape ?a = _ |- context [nd_shape ?a] => rewrite E | E : nd_dtype ?a = _ |- context [nd_dtype ?a] => rewrite E end;
  cbn [MemFacts.fresh nd_shape nd_dtype];
  repeat match goal with E : nd_shape ?a = _ |- context [nd_shape ?a] => rewrite E end; cbn; rewrite ?Nat.eqb_refl; reflexivity.
(** [h0] is the memory at the start *)
Ltac rstep h0 :=
  lazymatch goal with
  | |- wp _ (bnd (assertM _) _) _ => apply wp_assert; [by_shape|]
  | |- wp _ (bnd (py_len ?a) _) _ => eapply wp_len; [eassumption|]
  | X : extends h0 ?h |- wp ?h (bnd (np_zeros _) _) _ =>
      let E := fresh "E" in let h' := fresh "h" in let L := fresh "L" in apply wp_zeros; intros h' E ? L; climb E; pose proof (extends_trans _ _ _ X E); pose proof (extends_length _ _ X)
  | X : extends h0 ?h |- wp ?h (bnd (astype_float ?a) _) _ =>
      let E := fresh "E" in let h' := fresh "h" in let L := fresh "L" in eapply (wp_astype h0); [eassumption|exact X|]; intros h' E ? L; climb E; pose proof (extends_trans _ _ _ X E); pose proof (extends_length _ _ X)
  | X : extends h0 ?h |- wp ?h (bnd (pass ?sp (MemFacts.fresh _ _ _)) _) _ => apply wp_pass_new; [accepted|]
  | X : extends h0 ?h |- wp ?h (bnd (pass ?sp ?a) _) _ =>
      let E := fresh "E" in let h' := fresh "h" in let p := fresh "p" in
      eapply (wp_pass h0); [eassumption|exact X|accepted|eassumption|]; intros p h' E ? ?; climb E; pose proof (extends_trans _ _ _ X E)
  end.
Lemma returns_value_wp {A} h (m : M A) v : wp h m (fun w h' => w = v /\ extends h h') -> returns_value h m v.
Proof. intros (w & h' & E & -> & X). exists h'. split; assumption. Qed.
Lemma returns_array_wp h m s c : wp h m (fun a h' => extends h h' /\ is_array h' a s c) -> returns_array h m s c.
Proof. intros (a & h' & E & X & I). exists a, h'. split; [exact E|]. split; assumption. Qed.
Lemma wp_value {A} h0 h (m : M A) v : m h = Done v h -> extends h0 h -> wp h m (fun w h' => w = v /\ extends h0 h').
Proof. intros E X. exists v, h. split; [exact E|]. split; [reflexivity|exact X]. Qed.
(** the C function stores a vector in a new array of three numbers *)
Lemma wp_store3 h0 h1 h n (m : M unit) v : m h = st3 (mkptr n 0) v h -> nth_error h n = Some (mkbuffer Float64 (repeat 0 (size [3%nat]))) -> n = length h1 -> extends h0 h1 -> extends h0 h ->
  wp h (m ;;; ret (MemFacts.fresh h1 [3%nat] Float64)) (fun a h' => extends h0 h' /\ is_array h' a [3%nat] [vx v; vy v; vz v]).
Proof.
  intros E B N X1 X. assert (n < length h)%nat by (apply nth_error_Some; congruence). cbn in B. pose proof (extends_length _ _ X1).
  eapply wp_done; [rewrite E; now apply st3_new|]. apply wp_ret. split; [apply extends_put; [exact X|lia]|]. now apply put_array.
Qed.
Ltac begin_value := apply returns_value_wp; match goal with |- wp ?h _ _ => pose proof (extends_refl h) end.
Ltac begin_array := apply returns_array_wp; match goal with |- wp ?h _ _ => pose proof (extends_refl h) end.

Section Values.
Variable h : heap.
Lemma ret_potential_radial p q j x N : array_ok h p -> nd_shape p = [3%nat] -> floats h q [N] -> floats h j [N; 16%nat] -> floats h x [N; 16%nat; 2%nat] ->
  returns_value h (potential_radial_py p q j x) (FieldModel.potential_radial (point_of h p) (line_charges h q j x)).
Proof.
  intros Ap Sp (Aq & Sq & Tq) (Aj & Sj & Tj) (Ax & Sx & Tx). begin_value.
  unfold potential_radial_py. change N_QUAD_2D with 16%nat. repeat rstep h. apply wp_value; [|assumption]. apply val_potential_radial; assumption.
Qed.
Lemma ret_field_radial p q j x N : array_ok h p -> nd_shape p = [3%nat] -> floats h q [N] -> floats h j [N; 16%nat] -> floats h x [N; 16%nat; 2%nat] ->
  let E := FieldModel.field_radial (point_of h p) (line_charges h q j x) in returns_array h (field_radial_py p q j x) [3%nat] [vx E; vy E; vz E].
Proof.
  intros Ap Sp (Aq & Sq & Tq) (Aj & Sj & Tj) (Ax & Sx & Tx) E. begin_array.
  unfold field_radial_py. change N_QUAD_2D with 16%nat. repeat rstep h.
  eapply wp_store3; [apply val_field_radial; assumption|eassumption|reflexivity|assumption|assumption].
Qed.
Lemma ret_potential_3d p q j x N : array_ok h p -> nd_shape p = [3%nat] -> floats h q [N] -> floats h j [N; 12%nat] -> floats h x [N; 12%nat; 3%nat] ->
  returns_value h (potential_3d_py p q j x) (FieldModel.potential_3d (point_of h p) (triangle_charges h q j x)).
Proof.
  intros Ap Sp (Aq & Sq & Tq) (Aj & Sj & Tj) (Ax & Sx & Tx). begin_value.
  unfold potential_3d_py. change N_TRIANGLE_QUAD with 12%nat. repeat rstep h. apply wp_value; [|assumption]. apply val_potential_3d; assumption.
Qed.
Lemma ret_field_3d p q j x N : array_ok h p -> nd_shape p = [3%nat] -> floats h q [N] -> floats h j [N; 12%nat] -> floats h x [N; 12%nat; 3%nat] ->
  let E := FieldModel.field_3d (point_of h p) (triangle_charges h q j x) in returns_array h (field_3d_py p q j x) [3%nat] [vx E; vy E; vz E].
Proof.
  intros Ap Sp (Aq & Sq & Tq) (Aj & Sj & Tj) (Ax & Sx & Tx) E. begin_array.
  unfold field_3d_py. change N_TRIANGLE_QUAD with 12%nat. repeat rstep h.
  eapply wp_store3; [apply val_field_3d; assumption|eassumption|reflexivity|assumption|assumption].
Qed.
(** the second coordinate of every position is zero *)
Definition in_plane (x : ndarray) : Prop := forall i k, In [i; k; 1%nat] (indices (nd_shape x)) -> item h x [i; k; 1%nat] = 0.
Lemma wp_middle {A} h' x a b c (k : bool -> M A) Q : array_ok h x -> extends h h' -> nd_shape x = [a; b; c] -> (1 < c)%nat -> in_plane x -> wp h' (k true) Q -> wp h' (bnd (middle_zero x) k) Q.
Proof.
  intros Ax X S C P H. apply (wp_done _ _ _ _ true h'); [|exact H]. unfold middle_zero. rewrite S. rewrite (proj2 (Nat.ltb_lt _ _)) by exact C. f_equal.
  apply forallb_forall. intros idx I. destruct idx as [|u [|v [|w [|z idx]]]]; try reflexivity. destruct (Nat.eqb_spec w 1) as [->|]; [|reflexivity]. cbn [negb orb].
  rewrite (extends_item _ _ _ _ X Ax). destruct (Req_EM_T (item h x [u; v; 1%nat]) 0) as [|F]; [reflexivity|]. destruct F. apply P. now rewrite S.
Qed.
Lemma ret_current_field p q j x N : floats h p [3%nat] -> floats h q [N] -> floats h j [N; 12%nat] -> floats h x [N; 12%nat; 3%nat] -> in_plane x ->
  let B := FieldModel.current_field (point_of h p) (triangle_charges h q j x) in returns_array h (current_field_py p q j x) [3%nat] [vx B; vy B; vz B].
Proof.
  intros (Ap & Sp & Tp) (Aq & Sq & Tq) (Aj & Sj & Tj) (Ax & Sx & Tx) Pl B. begin_array.
  unfold current_field_py. change N_TRIANGLE_QUAD with 12%nat. repeat rstep h. eapply wp_middle; [exact Ax|assumption|exact Sx|lia|exact Pl|]. apply wp_assert; [reflexivity|]. repeat rstep h.
  eapply wp_store3; [apply val_current_field; assumption|eassumption|reflexivity|assumption|assumption].
Qed.
Lemma ret_current_potential_axial z q j x N : floats h q [N] -> floats h j [N; 12%nat] -> floats h x [N; 12%nat; 3%nat] -> in_plane x ->
  returns_value h (current_potential_axial_py z q j x) (evaluate (fun y => current_potential_axial_radial_ring z (vx y) (vz y)) (triangle_charges h q j x)).
Proof.
  intros (Aq & Sq & Tq) (Aj & Sj & Tj) (Ax & Sx & Tx) Pl. begin_value.
  unfold current_potential_axial_py. change N_TRIANGLE_QUAD with 12%nat. repeat rstep h. eapply wp_middle; [exact Ax|assumption|exact Sx|lia|exact Pl|]. apply wp_assert; [reflexivity|]. repeat rstep h.
  apply wp_value; [|assumption]. apply val_current_potential_axial with (N := N); assumption.
Qed.
Lemma ret_combine v e m c : floats h v [3%nat] -> floats h e [3%nat] -> floats h m [3%nat] -> floats h c [3%nat] ->
  let F := TracingModel.combine_elec_magnetic_field (point_of h v) (point_of h e) (point_of h m) (point_of h c) in
  returns_array h (combine_elec_magnetic_field_py v e m c) [3%nat] [vx F; vy F; vz F].
Proof.
  intros (Av & Sv & Tv) (Ae & Se & Te) (Am & Sm & Tm) (Ac & Sc & Tc) F. begin_array. unfold combine_elec_magnetic_field_py. repeat rstep h.
  eapply wp_store3; [|eassumption|reflexivity|assumption|assumption]. unfold c_combine_elec_magnetic_field.
  rewrite (bnd_done _ _ _ _ _ (ld3_point h m _ _ ltac:(eassumption) Sm)). rewrite (bnd_done _ _ _ _ _ (ld3_point h c _ _ ltac:(eassumption) Sc)).
  rewrite (bnd_done _ _ _ _ _ (ld3_point h v _ _ ltac:(eassumption) Sv)). rewrite (bnd_done _ _ _ _ _ (ld3_point h e _ _ ltac:(eassumption) Se)). reflexivity.
Qed.
(** row [i] of an array of vectors *)
Definition row_of (a : ndarray) (i : nat) : vec3 := V3 (item h a [i; 0%nat]) (item h a [i; 1%nat]) (item h a [i; 2%nat]).
Lemma ld_triangle_at a h' p : at_ h a h' p -> nd_shape a = [3%nat; 3%nat] -> ld_triangle p h' = Done (row_of a 0, row_of a 1, row_of a 2) h'.
Proof.
  intros B S. assert (L : length (contents h a) = 9%nat) by (rewrite contents_length, S; reflexivity).
  assert (R : forall i c, (i < 3)%nat -> (c < 3)%nat -> nth (i * 3 + c) (contents h a) 0 = item h a [i; c]) by (intros; now apply (nth_contents2 h a 3 3)).
  unfold ld_triangle. rewrite (bnd_done _ _ _ _ _ (ld3_block0 h' p _ B ltac:(lia))), (bnd_done _ _ _ _ _ (ld3_block h' p _ 3 B ltac:(lia))), (bnd_done _ _ _ _ _ (ld3_block h' p _ 6 B ltac:(lia))).
  unfold ret, row_of. cbn [Nat.add].
  pose proof (R 0 0 ltac:(lia) ltac:(lia))%nat as R0. pose proof (R 0 1 ltac:(lia) ltac:(lia))%nat as R1. pose proof (R 0 2 ltac:(lia) ltac:(lia))%nat as R2.
  pose proof (R 1 0 ltac:(lia) ltac:(lia))%nat as R3. pose proof (R 1 1 ltac:(lia) ltac:(lia))%nat as R4. pose proof (R 1 2 ltac:(lia) ltac:(lia))%nat as R5.
  pose proof (R 2 0 ltac:(lia) ltac:(lia))%nat as R6. pose proof (R 2 1 ltac:(lia) ltac:(lia))%nat as R7. pose proof (R 2 2 ltac:(lia) ltac:(lia))%nat as R8.
  cbn [Nat.add Nat.mul] in R0, R1, R2, R3, R4, R5, R6, R7, R8. now rewrite R0, R1, R2, R3, R4, R5, R6, R7, R8.
Qed.
Lemma ret_normal_3d t : floats h t [3%nat; 3%nat] -> let n := normal_3d (row_of t 0) (row_of t 1) (row_of t 2) in returns_array h (normal_3d_py t) [3%nat] [vx n; vy n; vz n].
Proof.
  intros (At & St & Tt) n. begin_array. unfold normal_3d_py. repeat rstep h. eapply wp_store3; [|eassumption|reflexivity|assumption|assumption].
  unfold c_normal_3d. rewrite (bnd_done _ _ _ _ _ (ld_triangle_at t _ _ ltac:(eassumption) St)). reflexivity.
Qed.
Lemma ret_position_and_jacobian_3d alpha beta t : floats h t [3%nat; 3%nat] ->
  let y := position_3d alpha beta (row_of t 0) (row_of t 1) (row_of t 2) in
  exists a h', position_and_jacobian_3d_py alpha beta t h = Done (jacobian_3d (row_of t 0) (row_of t 1) (row_of t 2), a) h' /\ extends h h' /\ is_array h' a [3%nat] [vx y; vy y; vz y].
Proof.
  intros (At & St & Tt) y.
  enough (W : wp h (position_and_jacobian_3d_py alpha beta t) (fun r h' => fst r = jacobian_3d (row_of t 0) (row_of t 1) (row_of t 2) /\ extends h h' /\ is_array h' (snd r) [3%nat] [vx y; vy y; vz y])).
  { destruct W as ([r a] & h' & E & J & X & I). cbn in J. subst r. exists a, h'. split; [exact E|]. split; assumption. }
  pose proof (extends_refl h). unfold position_and_jacobian_3d_py. repeat rstep h.
  unfold c_position_and_jacobian_3d. eapply wp_done.
  - rewrite (bnd_done _ _ _ _ _ (ld_triangle_at t _ _ ltac:(eassumption) St)). unfold bnd. rewrite st3_new by eassumption. reflexivity.
  - apply wp_ret. cbn [fst snd]. split; [reflexivity|]. split; [apply extends_put; [assumption|lia]|]. apply put_array; [reflexivity| |reflexivity]. apply nth_error_Some. congruence.
Qed.
End Values.
