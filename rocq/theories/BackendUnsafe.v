(** The calls that are safe only under a condition the Python functions do not check, and the calls that fault. *)
From Coq Require Import Reals Lra QArith.
From Verif Require Import Base BaseFacts Vec GeomModel MemModel FieldModel SeriesModel Axial3DModel MatrixModel MemFacts BackendModel BackendSafe BackendValues BackendCalls BackendReturns BackendTables BackendBuffers BackendMatrix BackendSeries BackendSeries3D.
From Verif Require TracingModel.
Local Close Scope Q_scope.
Local Open Scope R_scope.
Local Open Scope mem_scope.

Section Conditional.
Variable h : heap.
(** ** Four vertices at least *)
Lemma nf_charge_radial v charge N : array_ok h v -> nd_shape v = [N; 3%nat] -> (4 <= N)%nat -> nofault h (charge_radial_py v charge).
Proof. intros A S N4. unfold charge_radial_py. repeat wstep. assert (n = N) by congruence. subst n. assert (rest = [3%nat]) by congruence. subst rest. tidy. call_c safe_charge_radial. Qed.
(** ** Vectors whose third item follows in memory *)
Definition triple (a : ndarray) : Prop := array_ok h a /\ nd_shape a = [3%nat] /\ nd_strides a = [1%Z].
Lemma pass_triple a hh : triple a -> extends h hh ->
  exists a', first 2 a hh = Done a' hh /\ (pass v2 a' hh = Raises TypeError \/ nd_dtype a = Float64 /\ pass v2 a' hh = Done (nd_base a) hh /\ at_ h a hh (nd_base a)).
Proof.
  intros (A & S & T) E. unfold first. rewrite S. eexists. split; [reflexivity|]. unfold pass, bnd, ensure_contiguous_aligned.
  assert (is_contiguous (mkarray (nd_base a) (Nat.min 2 3 :: []) (nd_strides a) (nd_dtype a)) = true) as -> by (unfold is_contiguous; cbn [nd_shape nd_strides]; rewrite T; reflexivity).
  destruct (dtype_eqb Float64 (nd_dtype a)) eqn:D.
  - right. apply dtype_eqb_eq in D. split; [congruence|]. cbn [v2 accepts has_shape nd_shape nd_dtype shape_eqb]. rewrite <- D. split; [reflexivity|].
    unfold at_. rewrite D. rewrite <- (extends_contents _ _ _ E A). apply contiguous_block; [now apply (extends_array h)|]. unfold is_contiguous. rewrite S, T. reflexivity.
  - left. cbn [v2 accepts has_shape nd_shape nd_dtype shape_eqb]. rewrite D. reflexivity.
Qed.
Lemma ld_xz_at a p : at_ h a h p -> nd_shape a = [3%nat] -> ld_xz p h = Done (V3 (item h a [0%nat]) 0 (item h a [2%nat])) h.
Proof.
  intros B S. unfold ld_xz. rewrite (bnd_done _ _ _ _ _ (ld1 h a h p 3 0 B S ltac:(lia))), (bnd_done _ _ _ _ _ (ld1 h a h p 3 2 B S ltac:(lia))). reflexivity.
Qed.
Definition flat_of (a : ndarray) : vec3 := V3 (item h a [0%nat]) 0 (item h a [2%nat]).
Lemma val_position_and_jacobian_radial alpha a b c d : triple a -> triple b -> triple c -> triple d ->
  (exists e, position_and_jacobian_radial_py alpha a b c d h = Raises e) \/
  position_and_jacobian_radial_py alpha a b c d h = Done (position_radial alpha (flat_of a) (flat_of b) (flat_of c) (flat_of d), jacobian_radial alpha (flat_of a) (flat_of b) (flat_of c) (flat_of d)) h.
Proof.
  intros Ta Tb Tc Td. unfold position_and_jacobian_radial_py. assert (Sh : forall v, triple v -> (has_shape v [2%nat] || has_shape v [3%nat])%bool = true) by (intros v (_ & S & _); unfold has_shape; rewrite S; reflexivity).
  rewrite !Sh by assumption.
  destruct (pass_triple a h Ta (extends_refl h)) as (a' & Fa & Pa). destruct (pass_triple b h Tb (extends_refl h)) as (b' & Fb & Pb). destruct (pass_triple c h Tc (extends_refl h)) as (c' & Fc & Pc). destruct (pass_triple d h Td (extends_refl h)) as (d' & Fd & Pd).
  cbv [bnd assertM ret]. cbn beta iota. destruct (_ && _)%bool; [|left; eexists; reflexivity].
  rewrite Fa, Fb, Fc, Fd.
  destruct Pa as [Pa|(_ & Pa & Ba)]; [left; eexists; rewrite Pa; reflexivity|]. rewrite Pa.
  destruct Pb as [Pb|(_ & Pb & Bb)]; [left; eexists; rewrite Pb; reflexivity|]. rewrite Pb.
  destruct Pc as [Pc|(_ & Pc & Bc)]; [left; eexists; rewrite Pc; reflexivity|]. rewrite Pc.
  destruct Pd as [Pd|(_ & Pd & Bd)]; [left; eexists; rewrite Pd; reflexivity|]. rewrite Pd.
  right. unfold c_position_and_jacobian_radial. destruct Ta as (_ & Sa & _), Tb as (_ & Sb & _), Tc as (_ & Sc & _), Td as (_ & Sd & _).
  rewrite (bnd_done _ _ _ _ _ (ld_xz_at a _ Ba Sa)), (bnd_done _ _ _ _ _ (ld_xz_at b _ Bb Sb)), (bnd_done _ _ _ _ _ (ld_xz_at c _ Bc Sc)), (bnd_done _ _ _ _ _ (ld_xz_at d _ Bd Sd)). reflexivity.
Qed.
(** vertices[:, :2] of an array of four vertices: the third coordinates are still there *)
Definition narrow (v : ndarray) : ndarray := mkarray (nd_base v) [4%nat; 2%nat] (nd_strides v) (nd_dtype v).
Definition four_rows (v : ndarray) : Prop := floats h v [4%nat; 3%nat] /\ nd_strides v = [3%Z; 1%Z].
Definition row_view (v : ndarray) (i w : nat) : ndarray := mkarray (mkptr (p_buffer (nd_base v)) (p_offset (nd_base v) + 3 * Z.of_nat i)) [w] [1%Z] Float64.
Lemma row_triple v i : four_rows v -> (i < 4)%nat -> triple (row_view v i 3).
Proof.
  intros ((A & S & T) & St) Hi. split; [|split; reflexivity]. destruct A as (_ & b & Hb & Tb & R). split; [reflexivity|]. exists b. cbn [row_view nd_base p_buffer nd_dtype nd_shape]. split; [exact Hb|]. split; [congruence|].
  intros idx I. assert (J : In (i :: idx) (indices (nd_shape v))). { rewrite S. cbn [indices]. apply in_flat_map. exists i. split; [apply in_arange; exact Hi|]. now apply in_map. }
  apply R in J. unfold address in *. rewrite St in J. cbn [row_view nd_base p_offset nd_strides dot] in *. lia.
Qed.
Lemma row_item v i k : four_rows v -> item h (row_view v i 3) [k] = item h v [i; k].
Proof. intros (_ & St). unfold item, address. cbn [row_view nd_base p_buffer p_offset nd_strides dot]. rewrite St. cbn [dot]. replace (p_offset (nd_base v) + 3 * Z.of_nat i + (1 * Z.of_nat k + 0))%Z with (p_offset (nd_base v) + (3 * Z.of_nat i + (1 * Z.of_nat k + 0)))%Z by lia. reflexivity. Qed.
Lemma val_higher_order_normal_radial alpha v w : four_rows v -> w = v \/ w = narrow v ->
  let c i := V3 (item h v [i; 0%nat]) 0 (item h v [i; 2%nat]) in
  higher_order_normal_radial_py alpha w h = Done (higher_order_normal_radial alpha (c 0%nat) (c 2%nat) (c 3%nat) (c 1%nat)) h.
Proof.
  intros F W c. pose proof F as ((A & S & T) & St).
  assert (V : forall i, (i < 4)%nat -> (r <~ row w i ;; first 2 r) h = Done (mkarray (mkptr (p_buffer (nd_base v)) (p_offset (nd_base v) + 3 * Z.of_nat i)) [2%nat] [1%Z] Float64) h).
  { intros i Hi. unfold row, bnd. destruct W as [-> | ->]; cbn [narrow nd_shape nd_strides nd_base nd_dtype]; rewrite ?S, St, (proj2 (Nat.ltb_lt i 4) Hi); rewrite T; reflexivity. }
  unfold higher_order_normal_radial_py. cbv zeta. rewrite (bnd_done _ _ _ _ _ (V 0%nat ltac:(lia))), (bnd_done _ _ _ _ _ (V 2%nat ltac:(lia))), (bnd_done _ _ _ _ _ (V 3%nat ltac:(lia))), (bnd_done _ _ _ _ _ (V 1%nat ltac:(lia))).
  assert (P : forall i, (i < 4)%nat -> pass v2 (mkarray (mkptr (p_buffer (nd_base v)) (p_offset (nd_base v) + 3 * Z.of_nat i)) [2%nat] [1%Z] Float64) h = Done (nd_base (row_view v i 3)) h) by reflexivity.
  rewrite (bnd_done _ _ _ _ _ (P 0%nat ltac:(lia))), (bnd_done _ _ _ _ _ (P 2%nat ltac:(lia))), (bnd_done _ _ _ _ _ (P 3%nat ltac:(lia))), (bnd_done _ _ _ _ _ (P 1%nat ltac:(lia))).
  assert (X : forall i, (i < 4)%nat -> ld_xz (nd_base (row_view v i 3)) h = Done (c i) h).
  { intros i Hi. destruct (pass_triple (row_view v i 3) h (row_triple v i F Hi) (extends_refl h)) as (a' & _ & Pa). pose proof (row_triple v i F Hi) as (Ar & Sr & Tr).
    rewrite (ld_xz_at (row_view v i 3)); [unfold c; now rewrite !row_item by exact F| |reflexivity]. unfold at_. change Float64 with (nd_dtype (row_view v i 3)) at 1. apply contiguous_block; [exact Ar|reflexivity]. }
  unfold c_higher_order_normal_radial. rewrite (bnd_done _ _ _ _ _ (X 0%nat ltac:(lia))), (bnd_done _ _ _ _ _ (X 2%nat ltac:(lia))), (bnd_done _ _ _ _ _ (X 3%nat ltac:(lia))), (bnd_done _ _ _ _ _ (X 1%nat ltac:(lia))). reflexivity.
Qed.
(** ** At least one position *)
Lemma safe_plane_loop L p0 n x r N : room L x Float64 (N * 6) -> room L r Float64 6 -> forall i k, (i < N)%nat -> csafe L (c_plane_loop p0 n x r i k).
Proof.
  intros Hx Hr. induction i as [|i IH]; intros k Hi; cbn [c_plane_loop]; [apply csafe_ret|]. cstep; [cstep|]. cbv zeta. destruct (Bool.eqb _ _); [apply IH; lia|]. cstep; [|cstep]. cstep. csafety.
Qed.
Lemma nf_plane_intersection x p n N : array_ok h x -> array_ok h p -> array_ok h n -> nd_shape x = [N; 6%nat] -> (1 <= N)%nat -> nofault h (plane_intersection_py x p n).
Proof.
  intros Ax Ap An S N1. unfold plane_intersection_py. repeat wstep. assert (n0 = N) by congruence. assert (rest = [6%nat]) by congruence. subst n0 rest. tidy.
  apply nofault_c. apply csafe_bnd; [|intros []; [apply csafe_ret|apply csafe_raise]]. unfold c_plane_intersection. cstep; [apply csafe_ld3; enough_room|]. cstep; [apply csafe_ld3; enough_room|].
  apply csafe_bnd.
  - unfold ld_at. repeat (apply csafe_bnd; [eapply csafe_load; [eassumption|cbn [size fold_right]; lia]|intros]). apply csafe_ret.
  - intros q. apply (safe_plane_loop _ _ _ _ _ N); [eapply room_le; [|eassumption]; cbn [size fold_right]; lia|eapply room_le; [|eassumption]; cbn; lia|lia].
Qed.
End Conditional.

(** ** Faults *)
(** a new array in memory of its own *)
Definition zeros_buffer (n : nat) : buffer := mkbuffer Float64 (repeat 0 n).
Definition array_in (b : nat) (s : list nat) : ndarray := mkarray (mkptr b 0) s (c_strides s) Float64.
Lemma array_in_ok h b s : (exists cells, nth_error h b = Some (mkbuffer Float64 cells) /\ length cells = size s) -> floats h (array_in b s) s.
Proof.
  intros (cells & Hb & L). split; [|split; reflexivity]. split; [apply c_strides_length|]. exists (mkbuffer Float64 cells). cbn [array_in nd_base p_buffer nd_dtype nd_shape]. split; [exact Hb|]. split; [reflexivity|].
  intros idx I. apply In_nth with (d := []) in I. destruct I as (m & Hm & <-). rewrite indices_length in Hm. unfold address. cbn [array_in nd_base p_offset nd_strides b_cells]. rewrite dot_contiguous by (auto; apply c_strides_contiguous). lia.
Qed.
Lemma charge_radial_faults charge : let h := [zeros_buffer 9] in floats h (array_in 0 [3%nat; 3%nat]) [3%nat; 3%nat] /\ charge_radial_py (array_in 0 [3%nat; 3%nat]) charge h = Fault.
Proof. split; [apply array_in_ok; eexists; split; reflexivity|reflexivity]. Qed.
Lemma position_and_jacobian_radial_faults alpha : let h := [zeros_buffer 2; zeros_buffer 2; zeros_buffer 2; zeros_buffer 2] in
  (forall b, (b < 4)%nat -> floats h (array_in b [2%nat]) [2%nat]) /\ position_and_jacobian_radial_py alpha (array_in 0 [2%nat]) (array_in 1 [2%nat]) (array_in 2 [2%nat]) (array_in 3 [2%nat]) h = Fault.
Proof. split; [|reflexivity]. intros b Hb. apply array_in_ok. destruct b as [|[|[|[|b]]]]; try lia; eexists; split; reflexivity. Qed.
(** four points in columns: v.T of a Fortran ordered array *)
Definition column (i : nat) : ndarray := mkarray (mkptr 0 (Z.of_nat i)) [3%nat] [4%Z] Float64.
Lemma position_and_jacobian_radial_columns_fault alpha : let h := [zeros_buffer 12] in
  (forall i, (i < 4)%nat -> floats h (column i) [3%nat]) /\ position_and_jacobian_radial_py alpha (column 0) (column 1) (column 2) (column 3) h = Fault.
Proof.
  split.
  - intros i Hi. split; [|split; reflexivity]. split; [reflexivity|]. eexists. split; [reflexivity|]. split; [reflexivity|]. intros idx I. cbn in I. unfold address. cbn. destruct I as [<-|[<-|[<-|[]]]]; cbn; lia.
  - unfold position_and_jacobian_radial_py. cbv [bnd assertM ret]. cbn beta iota.
    assert (Z : forall i, (if Req_EM_T (item [zeros_buffer 12] (column i) [1%nat]) 0 then true else false) = true).
    { intros i. destruct (Req_EM_T _ 0) as [|n]; [reflexivity|]. exfalso. apply n. unfold item. cbn [column nd_base p_buffer nth_error zeros_buffer b_cells]. apply nth_repeat. }
    change (has_shape (column 0) [2%nat]) with false. change (has_shape (column 1) [2%nat]) with false. change (has_shape (column 2) [2%nat]) with false. change (has_shape (column 3) [2%nat]) with false.
    change (has_shape (column 0) [3%nat]) with true. change (has_shape (column 1) [3%nat]) with true. change (has_shape (column 2) [3%nat]) with true. change (has_shape (column 3) [3%nat]) with true.
    cbn [orb]. rewrite !Z. reflexivity.
Qed.
Lemma higher_order_normal_radial_faults alpha : let h := [zeros_buffer 8] in floats h (array_in 0 [4%nat; 2%nat]) [4%nat; 2%nat] /\ higher_order_normal_radial_py alpha (array_in 0 [4%nat; 2%nat]) h = Fault.
Proof. split; [apply array_in_ok; eexists; split; reflexivity|reflexivity]. Qed.
Lemma plane_intersection_faults : let h := [zeros_buffer 0; zeros_buffer 3; zeros_buffer 3] in
  floats h (array_in 0 [0%nat; 6%nat]) [0%nat; 6%nat] /\ floats h (array_in 1 [3%nat]) [3%nat] /\ floats h (array_in 2 [3%nat]) [3%nat] /\ plane_intersection_py (array_in 0 [0%nat; 6%nat]) (array_in 1 [3%nat]) (array_in 2 [3%nat]) h = Fault.
Proof. repeat split; try reflexivity; try (apply array_in_ok; eexists; split; reflexivity). Qed.
