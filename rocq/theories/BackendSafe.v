(** The C functions stay inside the buffers they are given, and the Python functions give them enough. *)
From Coq Require Import Reals.
From Verif Require Import Base Vec GeomModel MemModel FieldModel SeriesModel Axial3DModel MatrixModel MemFacts BackendModel.
From Verif Require TracingModel.
Local Open Scope mem_scope.

Ltac arith := unfold N_QUAD_2D, N_TRIANGLE_QUAD, DERIV_2D_MAX, NU_MAX, M_MAX in *; first [lia | nia].
Ltac roomy := first [eassumption | eapply room_shift; [|eassumption]; arith | eapply room_shift; [|eapply room_shift; [|eassumption]; shelve]; arith].

Lemma csafe_ld3 L p : room L p Float64 3 -> csafe L (ld3 p).
Proof. intros H. repeat (apply csafe_bnd; [eapply csafe_ld; [eassumption|lia]|intros]). apply csafe_ret. Qed.
Lemma csafe_st3 L p v : room L p Float64 3 -> csafe L (st3 p v).
Proof. intros H. apply csafe_bnd; [eapply csafe_st; [eassumption|lia]|intros]. apply csafe_bnd; [eapply csafe_st; [eassumption|lia]|intros]. eapply csafe_st; [eassumption|lia]. Qed.
Lemma csafe_ld_triangle L p : room L p Float64 9 -> csafe L (ld_triangle p).
Proof.
  intros H. apply csafe_bnd; [apply csafe_ld3; eapply room_le; [|eassumption]; lia|intros].
  apply csafe_bnd; [apply csafe_ld3; eapply room_shift; [|eassumption]; lia|intros].
  apply csafe_bnd; [apply csafe_ld3; eapply room_shift; [|eassumption]; lia|intros]. apply csafe_ret.
Qed.
Lemma csafe_ld_xz L p : room L p Float64 3 -> csafe L (ld_xz p).
Proof. intros H. repeat (apply csafe_bnd; [eapply csafe_ld; [eassumption|lia]|intros]). apply csafe_ret. Qed.
Lemma csafe_position_and_jacobian_radial L alpha a b c d :
  room L a Float64 3 -> room L b Float64 3 -> room L c Float64 3 -> room L d Float64 3 -> csafe L (c_position_and_jacobian_radial alpha a b c d).
Proof. intros. repeat (apply csafe_bnd; [apply csafe_ld_xz; assumption|intros]). apply csafe_ret. Qed.
Lemma csafe_higher_order_normal_radial L alpha a b c d :
  room L a Float64 3 -> room L b Float64 3 -> room L c Float64 3 -> room L d Float64 3 -> csafe L (c_higher_order_normal_radial alpha a b c d).
Proof. intros. repeat (apply csafe_bnd; [apply csafe_ld_xz; assumption|intros]). apply csafe_ret. Qed.
(** the four vertices of a line element, stored one after the other *)
Lemma csafe_line_jacobian L alpha l : room L l Float64 12 -> csafe L (c_position_and_jacobian_radial alpha l (shift l 6) (shift l 9) (shift l 3)).
Proof.
  intros H. apply csafe_position_and_jacobian_radial; [eapply room_le; [|exact H]; lia|eapply room_shift; [|exact H]; lia..].
Qed.
Lemma csafe_line_normal L alpha l : room L l Float64 12 -> csafe L (c_higher_order_normal_radial alpha l (shift l 6) (shift l 9) (shift l 3)).
Proof.
  intros H. apply csafe_higher_order_normal_radial; [eapply room_le; [|exact H]; lia|eapply room_shift; [|exact H]; lia..].
Qed.

(** one step through a C program *)
Ltac cstep :=
  lazymatch goal with
  | |- csafe _ (ret _) => apply csafe_ret
  | |- csafe _ c_exit => apply csafe_exit
  | |- csafe _ (bnd _ _) => apply csafe_bnd; [|intros ?]
  | |- csafe _ (loop _ _ _) => apply csafe_loop; intros ? ? ?
  | |- csafe _ (for_each _ _) => apply csafe_for_each; intros ? ?
  | |- csafe _ (if ?b then _ else _) => destruct b
  | |- csafe _ (match ?x with pair _ _ => _ end) => destruct x
  | |- csafe _ (ld _ _) => eapply csafe_ld; [eassumption|arith]
  | |- csafe _ (st _ _ _) => eapply csafe_st; [eassumption|arith]
  | |- csafe _ (st_add _ _ _) => eapply csafe_st_add; [eassumption|arith]
  | |- csafe _ (load _ _ _) => eapply csafe_load; [eassumption|arith]
  | |- csafe _ (ld3 (shift _ _)) => apply csafe_ld3; eapply room_shift; [|eassumption]; arith
  | |- csafe _ (ld3 _) => apply csafe_ld3; eapply room_le; [|eassumption]; arith
  | |- csafe _ (st3 (shift _ _) _) => apply csafe_st3; eapply room_shift; [|eassumption]; arith
  | |- csafe _ (st3 _ _) => apply csafe_st3; eapply room_le; [|eassumption]; arith
  | |- csafe _ (ld_triangle (shift _ _)) => apply csafe_ld_triangle; eapply room_shift; [|eassumption]; arith
  | |- csafe _ (ld_triangle _) => apply csafe_ld_triangle; eapply room_le; [|eassumption]; arith
  | |- csafe _ (c_position_and_jacobian_radial _ (shift _ _) _ _ _) => apply csafe_line_jacobian; eapply room_shift; [|eassumption]; arith
  | |- csafe _ (c_position_and_jacobian_radial _ _ _ _ _) => apply csafe_line_jacobian; eapply room_le; [|eassumption]; arith
  | |- csafe _ (c_higher_order_normal_radial _ (shift _ _) _ _ _) => apply csafe_line_normal; eapply room_shift; [|eassumption]; arith
  end.
Ltac csafety := repeat (cbv zeta; cstep).

Lemma safe_normal_2d L a b n : room L a Float64 2 -> room L b Float64 2 -> room L n Float64 2 -> csafe L (c_normal_2d a b n).
Proof. intros. unfold c_normal_2d. csafety. Qed.
Lemma safe_normal_3d L t n : room L t Float64 9 -> room L n Float64 3 -> csafe L (c_normal_3d t n).
Proof. intros. unfold c_normal_3d. csafety. Qed.
Lemma safe_position_and_jacobian_3d L alpha beta t p : room L t Float64 9 -> room L p Float64 3 -> csafe L (c_position_and_jacobian_3d alpha beta t p).
Proof. intros. unfold c_position_and_jacobian_3d. csafety. Qed.
Lemma safe_triangle_areas L t o N : room L t Float64 (N * 9) -> room L o Float64 N -> csafe L (c_triangle_areas t o N).
Proof. intros. unfold c_triangle_areas. csafety. Qed.
Lemma safe_combine L v e m c r : room L v Float64 3 -> room L e Float64 3 -> room L m Float64 3 -> room L c Float64 3 -> room L r Float64 3 ->
  csafe L (c_combine_elec_magnetic_field v e m c r).
Proof. intros. unfold c_combine_elec_magnetic_field. csafety. Qed.
Lemma safe_potential_radial L p q j x N : room L p Float64 3 -> room L q Float64 N -> room L j Float64 (N * N_QUAD_2D) -> room L x Float64 (N * N_QUAD_2D * 2) ->
  csafe L (c_potential_radial p q j x N).
Proof. intros. unfold c_potential_radial. csafety. Qed.
Lemma safe_field_radial L p f q j x N : room L p Float64 3 -> room L f Float64 3 -> room L q Float64 N -> room L j Float64 (N * N_QUAD_2D) ->
  room L x Float64 (N * N_QUAD_2D * 2) -> csafe L (c_field_radial p f q j x N).
Proof. intros. unfold c_field_radial. csafety. Qed.
Lemma safe_current_field L p f q j x N : room L p Float64 3 -> room L f Float64 3 -> room L q Float64 N -> room L j Float64 (N * N_TRIANGLE_QUAD) ->
  room L x Float64 (N * N_TRIANGLE_QUAD * 3) -> csafe L (c_current_field p f q j x N).
Proof. intros. unfold c_current_field. csafety. Qed.
Lemma safe_current_potential_axial L z q j x N : room L q Float64 N -> room L j Float64 (N * N_TRIANGLE_QUAD) ->
  room L x Float64 (N * N_TRIANGLE_QUAD * 3) -> csafe L (c_current_potential_axial z q j x N).
Proof. intros. unfold c_current_potential_axial. csafety. Qed.
Lemma safe_potential_3d L p q j x N : room L p Float64 3 -> room L q Float64 N -> room L j Float64 (N * N_TRIANGLE_QUAD) ->
  room L x Float64 (N * N_TRIANGLE_QUAD * 3) -> csafe L (c_potential_3d p q j x N).
Proof. intros. unfold c_potential_3d. csafety. Qed.
Lemma safe_field_3d L p f q j x N : room L p Float64 3 -> room L f Float64 3 -> room L q Float64 N -> room L j Float64 (N * N_TRIANGLE_QUAD) ->
  room L x Float64 (N * N_TRIANGLE_QUAD * 3) -> csafe L (c_field_3d p f q j x N).
Proof. intros. unfold c_field_3d. csafety. Qed.
Lemma flat_lt a b c Q n : (a < n -> b < Q -> c = a * Q + b -> c < n * Q)%nat.
Proof. nia. Qed.
Lemma safe_axial_derivatives L ring Q D zc d q j x N z N_z : (zc < D)%nat -> room L d Float64 (N_z * DERIV_2D_MAX) -> room L q Float64 N ->
  room L j Float64 (N * Q) -> room L x Float64 (N * Q * D) -> room L z Float64 N_z -> csafe L (c_axial_derivatives ring Q D zc d q j x N z N_z).
Proof.
  intros. unfold c_axial_derivatives. apply csafe_for_each; intros i Hi. apply csafe_for_each; intros k Hk. apply csafe_for_each; intros m Hm.
  assert (B : (k * Q + m < N * Q)%nat) by (eapply flat_lt; [exact Hk|exact Hm|reflexivity]).
  apply csafe_bnd; [cstep|intros].
  apply csafe_bnd; [eapply csafe_ld; [eassumption|]; eapply flat_lt; [exact B| |symmetry; apply Nat.add_0_r]; lia|intros].
  apply csafe_bnd; [eapply csafe_ld; [eassumption|]; eapply flat_lt; [exact B| |reflexivity]; lia|intros].
  csafety.
Qed.
Lemma safe_axial_coefficients_3d L q j x tc ts N z o N_z : room L q Float64 N -> room L j Float64 (N * N_TRIANGLE_QUAD) ->
  room L x Float64 (N * N_TRIANGLE_QUAD * 3) -> room L tc Float64 (N * N_TRIANGLE_QUAD * M_MAX) -> room L ts Float64 (N * N_TRIANGLE_QUAD * M_MAX) ->
  room L z Float64 N_z -> room L o Float64 (N_z * 2 * NU_MAX * M_MAX) -> csafe L (c_axial_coefficients_3d q j x tc ts N z o N_z).
Proof. intros. unfold c_axial_coefficients_3d. csafety. Qed.
Lemma safe_charge_radial L v charge : room L v Float64 12 -> csafe L (c_charge_radial v charge).
Proof. intros. unfold c_charge_radial. csafety. Qed.
Lemma safe_fill_jacobian_buffer_radial L j x v N : room L j Float64 (N * N_QUAD_2D) -> room L x Float64 (N * N_QUAD_2D * 2) -> room L v Float64 (N * 12) ->
  csafe L (c_fill_jacobian_buffer_radial j x v N).
Proof. intros. unfold c_fill_jacobian_buffer_radial. csafety. Qed.
Lemma safe_fill_jacobian_buffer_3d L j x v N : room L j Float64 (N * N_TRIANGLE_QUAD) -> room L x Float64 (N * N_TRIANGLE_QUAD * 3) -> room L v Float64 (N * 9) ->
  csafe L (c_fill_jacobian_buffer_3d j x v N).
Proof. intros. unfold c_fill_jacobian_buffer_3d. csafety. Qed.
Lemma safe_fill_matrix_radial L m l t v j x N start end_ : (end_ < N)%nat -> room L m Float64 (N * N) -> room L l Float64 (N * 12) ->
  room L t UInt8 N -> room L v Float64 N -> room L j Float64 (N * N_QUAD_2D) -> room L x Float64 (N * N_QUAD_2D * 2) ->
  csafe L (c_fill_matrix_radial m l t v j x N N start end_).
Proof. intros. unfold c_fill_matrix_radial. csafety. Qed.
Lemma safe_fill_matrix_3d integrate L m l t v j x N start end_ : (end_ < N)%nat -> room L m Float64 (N * N) -> room L l Float64 (N * 9) ->
  room L t UInt8 N -> room L v Float64 N -> room L j Float64 (N * N_TRIANGLE_QUAD) -> room L x Float64 (N * N_TRIANGLE_QUAD * 3) ->
  csafe L (c_fill_matrix_3d integrate m l t v j x N N start end_).
Proof. intros. unfold c_fill_matrix_3d. csafety. Qed.

(** ** The Python functions *)
Lemma accepts_dtype sp a t : accepts sp a = true -> (forall s, sp = ByShape s t \/ exists n, sp = ByDim n t) -> nd_dtype a = t.
Proof. intros H Hs. destruct sp as [n t'|s t']; cbn in H; apply andb_true_iff in H; destruct H as [_ H]; apply dtype_eqb_eq in H; destruct (Hs []) as [E|[m E]]; congruence. Qed.
Lemma accepts_dim n t a : accepts (ByDim n t) a = true -> length (nd_shape a) = n /\ nd_dtype a = t.
Proof. cbn. rewrite andb_true_iff, Nat.eqb_eq, dtype_eqb_eq. intuition. Qed.
Lemma accepts_shape s t a : accepts (ByShape s t) a = true -> nd_shape a = s /\ nd_dtype a = t.
Proof. cbn. unfold has_shape. rewrite andb_true_iff, shape_eqb_eq, dtype_eqb_eq. intuition. Qed.
Lemma has_shape_eq a s : has_shape a s = true -> nd_shape a = s.
Proof. apply shape_eqb_eq. Qed.
Lemma nofault_middle {A} h a (k : bool -> M A) : (forall b, nofault h (k b)) -> nofault h (bnd (middle_zero a) k).
Proof.
  intros H. unfold nofault, bnd, middle_zero. destruct (nd_shape a) as [|? [|? [|? [|? ?]]]]; try discriminate. destruct (_ <? _)%nat; [apply H|discriminate].
Qed.
Lemma nofault_square {A} h m N (k : M A) : (forall rest, nd_shape m = N :: N :: rest -> nofault h k) -> nofault h (bnd (square m N) (fun _ => k)).
Proof.
  intros H. unfold nofault, bnd, square, assertM. destruct (nd_shape m) as [|a [|b rest]] eqn:E; [discriminate| |].
  - destruct (_ =? _)%nat; discriminate.
  - destruct (Nat.eqb_spec a N) as [->|]; [|discriminate]. destruct (Nat.eqb_spec b N) as [->|]; [|discriminate]. now apply (H rest).
Qed.

Ltac lift E :=
  repeat match type of E with extends ?h ?h' =>
    match goal with
    | H : array_ok h ?a |- _ => apply (extends_array h h' a E) in H
    | H : room (layout h) ?p ?t ?n |- _ => apply (extends_room h h' p t n E) in H
    end end; clear E.
Ltac tidy :=
  repeat match goal with
  | H : has_shape _ _ = true |- _ => apply has_shape_eq in H
  | H : accepts v2 _ = true |- _ => apply accepts_shape in H; destruct H
  | H : accepts v3 _ = true |- _ => apply accepts_shape in H; destruct H
  | H : accepts (ByShape _ _) _ = true |- _ => apply accepts_shape in H; destruct H
  | H : accepts (arr _) _ = true |- _ => apply accepts_dim in H; destruct H
  | H : accepts (ByDim _ _) _ = true |- _ => apply accepts_dim in H; destruct H
  | H : room _ _ (nd_dtype ?a) _, E : nd_dtype ?a = _ |- _ => rewrite E in H
  | E : nd_shape ?a = _, H : room _ _ _ ?n |- _ => match n with context [nd_shape a] => rewrite E in H end
  | H : (_ && _)%bool = true |- _ => apply andb_true_iff in H; destruct H
  | H : (_ <? _)%nat = true |- _ => apply Nat.ltb_lt in H
  | H : (_ <=? _)%nat = true |- _ => apply Nat.leb_le in H
  end.
Ltac wstep :=
  lazymatch goal with
  | |- nofault _ (bnd (assertM _) _) => apply nofault_assert; intros ?
  | |- nofault _ (bnd (py_len _) _) => apply nofault_len; intros ? ? ?
  | |- nofault _ (bnd (np_zeros _) _) => let E := fresh in apply nofault_zeros; intros ? ? E ? ? ?; lift E
  | |- nofault _ (bnd (astype_float _) _) => let E := fresh in apply nofault_astype; intros ? ? E ? ? ?; lift E
  | |- nofault _ (bnd (pass _ _) _) => let E := fresh in eapply nofault_pass; [eassumption|intros ? ? E ? ?; lift E]
  | |- nofault _ (bnd (middle_zero _) _) => apply nofault_middle; intros ?
  | |- nofault _ (bnd (square _ _) _) => apply nofault_square; intros ? ?
  end.
(** at the call of C: every room is large enough *)
Ltac enough_room := match goal with |- room _ _ _ _ => eapply room_le; [|eassumption]; cbn [size fold_right]; arith end.
Ltac shapes :=
  repeat match goal with
  | H : length (nd_shape ?a) = _, E : nd_shape ?a = _ :: _ |- _ => rewrite E in H; cbn [length] in H
  | H : S (length ?l) = 1%nat |- _ => is_var l; destruct l; [clear H|cbn [length] in H; lia]
  | H : S (S (length ?l)) = 2%nat |- _ => is_var l; destruct l; [clear H|cbn [length] in H; lia]
  end.
Ltac wsafety f := intros; unfold f; repeat wstep; tidy; shapes; tidy.
Ltac call_c lem := apply nofault_c; first [apply lem | apply csafe_bnd; [apply lem|intros; apply csafe_ret]]; try enough_room; try arith.

Section Safe.
Variable h : heap.
Lemma nf_potential_radial p q j x : array_ok h p -> array_ok h q -> array_ok h j -> array_ok h x -> nofault h (potential_radial_py p q j x).
Proof. wsafety potential_radial_py. call_c safe_potential_radial. Qed.
Lemma nf_field_radial p q j x : array_ok h p -> array_ok h q -> array_ok h j -> array_ok h x -> nofault h (field_radial_py p q j x).
Proof. wsafety field_radial_py. call_c safe_field_radial. Qed.
Lemma nf_potential_3d p q j x : array_ok h p -> array_ok h q -> array_ok h j -> array_ok h x -> nofault h (potential_3d_py p q j x).
Proof. wsafety potential_3d_py. call_c safe_potential_3d. Qed.
Lemma nf_field_3d p q j x : array_ok h p -> array_ok h q -> array_ok h j -> array_ok h x -> nofault h (field_3d_py p q j x).
Proof. wsafety field_3d_py. call_c safe_field_3d. Qed.
Lemma nf_current_field p q j x : array_ok h p -> array_ok h q -> array_ok h j -> array_ok h x -> nofault h (current_field_py p q j x).
Proof. wsafety current_field_py. call_c safe_current_field. Qed.
Lemma nf_current_potential_axial z q j x : array_ok h q -> array_ok h j -> array_ok h x -> nofault h (current_potential_axial_py z q j x).
Proof. wsafety current_potential_axial_py. call_c safe_current_potential_axial. Qed.
Lemma nf_axial_derivatives_radial z q j x : array_ok h z -> array_ok h q -> array_ok h j -> array_ok h x -> nofault h (axial_derivatives_radial_py z q j x).
Proof. wsafety axial_derivatives_radial_py. call_c safe_axial_derivatives. Qed.
Lemma nf_current_axial_derivatives_radial z q j x : array_ok h z -> array_ok h q -> array_ok h j -> array_ok h x -> nofault h (current_axial_derivatives_radial_py z q j x).
Proof. wsafety current_axial_derivatives_radial_py. call_c safe_axial_derivatives. Qed.
Lemma nf_axial_coefficients_3d q j x z : array_ok h q -> array_ok h j -> array_ok h x -> array_ok h z -> nofault h (axial_coefficients_3d_py q j x z).
Proof. wsafety axial_coefficients_3d_py. call_c safe_axial_coefficients_3d. Qed.
Lemma nf_normal_2d a b : array_ok h a -> array_ok h b -> nofault h (normal_2d_py a b).
Proof. wsafety normal_2d_py. call_c safe_normal_2d. Qed.
Lemma nf_normal_3d t : array_ok h t -> nofault h (normal_3d_py t).
Proof. wsafety normal_3d_py. call_c safe_normal_3d. Qed.
Lemma nf_position_and_jacobian_3d alpha beta t : array_ok h t -> nofault h (position_and_jacobian_3d_py alpha beta t).
Proof. wsafety position_and_jacobian_3d_py. call_c safe_position_and_jacobian_3d. Qed.
Lemma nf_triangle_areas t : array_ok h t -> nofault h (triangle_areas_py t).
Proof. wsafety triangle_areas_py. call_c safe_triangle_areas. Qed.
Lemma nf_combine v e m c : array_ok h v -> array_ok h e -> array_ok h m -> array_ok h c -> nofault h (combine_elec_magnetic_field_py v e m c).
Proof. wsafety combine_elec_magnetic_field_py. call_c safe_combine. Qed.
Lemma nf_fill_jacobian_buffer_radial v : array_ok h v -> nofault h (fill_jacobian_buffer_radial_py v).
Proof. wsafety fill_jacobian_buffer_radial_py. call_c safe_fill_jacobian_buffer_radial. Qed.
Lemma nf_fill_jacobian_buffer_3d v : array_ok h v -> nofault h (fill_jacobian_buffer_3d_py v).
Proof. wsafety fill_jacobian_buffer_3d_py. call_c safe_fill_jacobian_buffer_3d. Qed.
Lemma nf_fill_matrix_radial m l t v j x start end_ : array_ok h m -> array_ok h l -> array_ok h t -> array_ok h v -> array_ok h j -> array_ok h x ->
  nofault h (fill_matrix_radial_py m l t v j x start end_).
Proof. wsafety fill_matrix_radial_py. call_c safe_fill_matrix_radial. Qed.
Lemma nf_fill_matrix_3d integrate m l t v j x start end_ : array_ok h m -> array_ok h l -> array_ok h t -> array_ok h v -> array_ok h j -> array_ok h x ->
  nofault h (fill_matrix_3d_py integrate m l t v j x start end_).
Proof. wsafety fill_matrix_3d_py. call_c safe_fill_matrix_3d. Qed.
End Safe.
