(** Calls whose values were left open by BackendReturns and BackendTables: plane_intersection, normal_2d, charge_radial and
    axial_coefficients_3d. *)
From Coq Require Import Reals Lra QArith Qreals.
From Verif Require Import Base BaseFacts Vec GeomModel Tables QuadModel MemModel FieldModel SeriesModel Axial3DModel MatrixModel MemFacts BackendModel BackendSafe BackendValues BackendCalls BackendReturns BackendTables BackendBuffers BackendSeries.
From Verif Require TracingModel.
Local Open Scope R_scope.
Local Open Scope mem_scope.

Lemma pass_done h0 h sp a t : array_ok h0 a -> extends h0 h -> accepts sp a = true -> nd_dtype a = t ->
  exists p h', pass sp a h = Done p h' /\ extends h h' /\ block h' p t (contents h0 a) /\ apart h0 h p.
Proof.
  intros A X Ac T. destruct (wp_pass h0 h sp a t ret (fun p h' => extends h h' /\ block h' p t (contents h0 a) /\ apart h0 h p) A X Ac T) as (p & h' & E & W).
  { intros p h' X' B P. apply wp_ret. split; [exact X'|]. split; assumption. }
  exists p, h'. split; [|exact W]. unfold bnd in E. destruct (pass sp a h); [exact E|discriminate|discriminate|discriminate].
Qed.

Section Traj.
Variable h : heap.
(** row [i] of an array of samples: position and velocity *)
Definition sample_of (a : ndarray) (i : nat) : TracingModel.state :=
  TracingModel.mkstate (V3 (item h a [i; 0%nat]) (item h a [i; 1%nat]) (item h a [i; 2%nat])) (V3 (item h a [i; 3%nat]) (item h a [i; 4%nat]) (item h a [i; 5%nat])).
Definition samples_of (a : ndarray) : list TracingModel.state := map (sample_of a) (arange (hd 0%nat (nd_shape a))).
Definition six (s : TracingModel.state) : list R :=
  [vx (TracingModel.s_pos s); vy (TracingModel.s_pos s); vz (TracingModel.s_pos s); vx (TracingModel.s_vel s); vy (TracingModel.s_vel s); vz (TracingModel.s_vel s)].

Lemma ld_sample a hh x N i c m : at_ h a hh x -> nd_shape a = [N; 6%nat] -> (i < N)%nat -> (c < 6)%nat -> m = (6 * i + c)%nat -> ld x m hh = Done (item h a [i; c]) hh.
Proof. intros B Sh Hi Hc ->. replace (6 * i + c)%nat with (i * 6 + c)%nat by lia. now apply (ld2 h a hh x N 6). Qed.
Lemma ld_sample_pos a hh x N i : at_ h a hh x -> nd_shape a = [N; 6%nat] -> (i < N)%nat -> ld3 (shift x (6 * i)) hh = Done (TracingModel.s_pos (sample_of a i)) hh.
Proof.
  intros B Sh Hi. unfold ld3, bnd. rewrite ld_shift, (ld_sample a hh x N i 0) by (auto; lia). rewrite ld_shift, (ld_sample a hh x N i 1) by (auto; lia). rewrite ld_shift, (ld_sample a hh x N i 2) by (auto; lia). reflexivity.
Qed.
Lemma rev_arange {A} (f : nat -> A) i : rev (map f (arange (S i))) = f i :: rev (map f (arange i)).
Proof. unfold arange. rewrite seq_S, map_app, rev_app_distr. reflexivity. Qed.
Lemma copy_six a hh x N i n u v : at_ h a hh x -> nd_shape a = [N; 6%nat] -> (S i < N)%nat -> p_buffer x <> n -> nth_error hh n = Some (mkbuffer Float64 (repeat 0 6)) ->
  for_each 6 (fun c => p <~ ld x (6 * S i + c) ;; q <~ ld x (6 * i + c) ;; st (mkptr n 0) c (u * p + v * q)) hh
  = Done tt (put hh n (cells 6 (fun c => u * item h a [S i; c] + v * item h a [i; c]))).
Proof.
  intros B Sh Hi Hn E. assert (Hl : (n < length hh)%nat) by (apply nth_error_Some; congruence). rewrite <- (put_same hh n _ E) at 1. rewrite zeros_cells at 1.
  set (f := fun c => u * item h a [S i; c] + v * item h a [i; c]).
  transitivity (Done tt (put hh n (cells 6 (fun m => if (m <? 6)%nat then f m else 0)))).
  - apply (for_each_put hh n _ 6 (fun k => cells 6 (fun m => if (m <? k)%nat then f m else 0))). intros k Hk.
    set (hp := put hh n _). assert (Bp : at_ h a hp x) by (now apply block_put).
    rewrite (bnd_done _ _ _ _ _ (ld_sample a hp x N (S i) k _ Bp Sh ltac:(lia) Hk eq_refl)). rewrite (bnd_done _ _ _ _ _ (ld_sample a hp x N i k _ Bp Sh ltac:(lia) Hk eq_refl)).
    unfold hp. rewrite st_cells by assumption. f_equal. f_equal. apply cells_ext. intros m _.
    destruct (Nat.eqb_spec m k) as [->|]; [now rewrite (proj2 (Nat.ltb_lt _ _)) by lia|]. destruct (Nat.ltb_spec m k), (Nat.ltb_spec m (S k)); try lia; reflexivity.
  - rewrite (cells_ext 6 _ f); [reflexivity|]. intros m Hm. now rewrite (proj2 (Nat.ltb_lt _ _)) by exact Hm.
Qed.
Lemma val_plane_loop a hh x N n p0 nrm : at_ h a hh x -> nd_shape a = [N; 6%nat] -> p_buffer x <> n -> nth_error hh n = Some (mkbuffer Float64 (repeat 0 6)) -> forall i, (i < N)%nat ->
  c_plane_loop p0 nrm x (mkptr n 0) i (TracingModel.kappa p0 nrm (TracingModel.s_pos (sample_of a i))) hh
  = match TracingModel.plane_loop p0 nrm (sample_of a i) (rev (map (sample_of a) (arange i))) with None => Done false hh | Some s => Done true (put hh n (six s)) end.
Proof.
  intros B Sh Hn E. induction i as [|i IH]; intros Hi; [reflexivity|]. rewrite rev_arange. cbn [c_plane_loop TracingModel.plane_loop].
  rewrite (bnd_done _ _ _ _ _ (ld_sample_pos a hh x N i B Sh ltac:(lia))). cbv zeta.
  destruct (Bool.eqb _ _); [apply IH; lia|].
  rewrite (bnd_done _ _ _ _ _ (copy_six a hh x N i n _ _ B Sh Hi Hn E)). unfold ret. f_equal.
Qed.
Lemma samples_rev a N : nd_shape a = [N; 6%nat] -> rev (samples_of a) = match N with O => [] | S n => sample_of a n :: rev (map (sample_of a) (arange n)) end.
Proof. intros Sh. unfold samples_of. rewrite Sh. cbn [hd]. destruct N as [|n]; [reflexivity|]. apply rev_arange. Qed.
(** the whole call, with at least one sample *)
Lemma val_plane_intersection x p n N : floats h x [N; 6%nat] -> floats h p [3%nat] -> floats h n [3%nat] -> (1 <= N)%nat ->
  match TracingModel.plane_loop (point_of h p) (point_of h n) (sample_of x (N - 1)) (rev (map (sample_of x) (arange (N - 1)))) with
  | Some s => returns_array h (plane_intersection_py x p n) [6%nat] (six s)
  | None => plane_intersection_py x p n h = Raises ValueError
  end.
Proof.
  intros (Ax & Sx & Tx) (Ap & Sp & Tp) (An & Sn & Tn) N1.
  set (h1 := h ++ [mkbuffer Float64 (repeat 0 6)]). assert (X1 : extends h h1) by apply extends_new.
  destruct (pass_done h h1 v3 p Float64 Ap X1 ltac:(accepted) Tp) as (pp & h2 & E2 & X2 & B2 & P2).
  assert (X02 : extends h h2) by (eapply extends_trans; eassumption).
  destruct (pass_done h h2 v3 n Float64 An X02 ltac:(accepted) Tn) as (pn & h3 & E3 & X3 & B3 & P3).
  assert (X03 : extends h h3) by (eapply extends_trans; eassumption).
  destruct (pass_done h h3 (arr 2) x Float64 Ax X03 ltac:(accepted) Tx) as (px & h4 & E4 & X4 & B4 & P4).
  assert (X04 : extends h h4) by (eapply extends_trans; eassumption).
  apply (extends_block _ _ _ _ _ X3) in B2. apply (extends_block _ _ _ _ _ X4) in B2. apply (extends_block _ _ _ _ _ X4) in B3.
  assert (E1 : nth_error h1 (length h) = Some (mkbuffer Float64 (repeat 0 6))) by (unfold h1; rewrite nth_error_app2, Nat.sub_diag by lia; reflexivity).
  apply (extends_nth _ _ _ _ X2) in E1. apply (extends_nth _ _ _ _ X3) in E1. apply (extends_nth _ _ _ _ X4) in E1.
  assert (Hl : length h1 = S (length h)) by (unfold h1; rewrite app_length; cbn; lia).
  assert (Hx : p_buffer px <> length h) by (pose proof (extends_length _ _ X2); pose proof (extends_length _ _ X3); destruct P4; lia).
  assert (C : c_plane_intersection pp pn px N (mkptr (length h) 0) h4
    = match TracingModel.plane_loop (point_of h p) (point_of h n) (sample_of x (N - 1)) (rev (map (sample_of x) (arange (N - 1)))) with None => Done false h4 | Some s => Done true (put h4 (length h) (six s)) end).
  { unfold c_plane_intersection. rewrite (bnd_done _ _ _ _ _ (ld3_point h p h4 pp B2 Sp)). rewrite (bnd_done _ _ _ _ _ (ld3_point h n h4 pn B3 Sn)).
    assert (L : ld_at px (6 * (Z.of_nat N - 1)) h4 = Done (TracingModel.s_pos (sample_of x (N - 1))) h4).
    { rewrite <- (ld_sample_pos x h4 px N (N - 1) B4 Sx ltac:(lia)). unfold ld_at, ld3, ld, shift, load, bnd. cbn [p_buffer p_offset].
      replace (p_offset px + Z.of_nat (6 * (N - 1)) + Z.of_nat 0)%Z with (p_offset px + 6 * (Z.of_nat N - 1))%Z by lia.
      replace (p_offset px + Z.of_nat (6 * (N - 1)) + Z.of_nat 1)%Z with (p_offset px + (6 * (Z.of_nat N - 1) + 1))%Z by lia.
      replace (p_offset px + Z.of_nat (6 * (N - 1)) + Z.of_nat 2)%Z with (p_offset px + (6 * (Z.of_nat N - 1) + 2))%Z by lia. reflexivity. }
    rewrite (bnd_done _ _ _ _ _ L). apply (val_plane_loop x h4 px N); try assumption. lia. }
  assert (R : plane_intersection_py x p n h
    = match TracingModel.plane_loop (point_of h p) (point_of h n) (sample_of x (N - 1)) (rev (map (sample_of x) (arange (N - 1)))) with None => Raises ValueError | Some s => Done (MemFacts.fresh h [6%nat] Float64) (put h4 (length h) (six s)) end).
  { unfold plane_intersection_py, has_shape, py_len. rewrite Sp, Sn, Sx. cbn [shape_eqb Nat.eqb andb assertM].
    do 3 erewrite bnd_done by reflexivity. rewrite Nat.eqb_refl. cbn [andb assertM]. erewrite bnd_done by reflexivity.
    unfold np_zeros. rewrite (bnd_done _ _ _ _ _ (new_array_eq _ _ _ _)). change (h ++ [mkbuffer Float64 (repeat 0%R (size [6%nat]))]) with h1.
    rewrite (bnd_done _ _ _ _ _ E2), (bnd_done _ _ _ _ _ E3), (bnd_done _ _ _ _ _ E4).
    assert (PF : pass (ByShape [6%nat] Float64) (MemFacts.fresh h [6%nat] Float64) h4 = Done (mkptr (length h) 0) h4) by (rewrite pass_fresh; reflexivity).
    rewrite (bnd_done _ _ _ _ _ PF). unfold bnd.
    rewrite C. destruct (TracingModel.plane_loop _ _ _ _); reflexivity. }
  rewrite R. destruct (TracingModel.plane_loop _ _ _ _) as [s|]; [|reflexivity].
  exists (MemFacts.fresh h [6%nat] Float64), (put h4 (length h) (six s)). split; [exact R|]. split; [apply extends_put; [exact X04|lia]|]. apply put_array; [reflexivity| |reflexivity]. apply nth_error_Some. congruence.
Qed.

(** ** normal_2d *)
Lemma st2_new hh n a b : nth_error hh n = Some (mkbuffer Float64 [0; 0]) -> (st (mkptr n 0) 0 a ;;; st (mkptr n 0) 1 b) hh = Done tt (put hh n [a; b]).
Proof.
  intros E. assert (H : (n < length hh)%nat) by (apply nth_error_Some; congruence). rewrite <- (put_same hh n [0; 0] E) at 1. unfold bnd.
  rewrite st_put by (auto; cbn; lia). rewrite st_put by (auto; cbn; lia). reflexivity.
Qed.
Lemma ret_normal_2d a b : floats h a [2%nat] -> floats h b [2%nat] ->
  let n := normal_2d (item h a [0%nat]) (item h a [1%nat]) (item h b [0%nat]) (item h b [1%nat]) in returns_array h (normal_2d_py a b) [2%nat] [fst n; snd n].
Proof.
  intros (Aa & Sa & Ta) (Ab & Sb & Tb) n. begin_array. unfold normal_2d_py. repeat rstep h. eapply wp_done.
  - unfold c_normal_2d. rewrite (bnd_done _ _ _ _ _ (ld1 h a _ _ 2 0 ltac:(eassumption) Sa ltac:(lia))), (bnd_done _ _ _ _ _ (ld1 h a _ _ 2 1 ltac:(eassumption) Sa ltac:(lia))).
    rewrite (bnd_done _ _ _ _ _ (ld1 h b _ _ 2 0 ltac:(eassumption) Sb ltac:(lia))), (bnd_done _ _ _ _ _ (ld1 h b _ _ 2 1 ltac:(eassumption) Sb ltac:(lia))).
    cbv zeta. apply st2_new. eassumption.
  - apply wp_ret. split; [apply extends_put; [assumption|lia]|]. apply put_array; [reflexivity| |reflexivity]. apply nth_error_Some. congruence.
Qed.

(** ** charge_radial *)
Lemma ld_xz_row2 l h' p N k m : at_ h l h' p -> nd_shape l = [N; 3%nat] -> (k < N)%nat -> m = (3 * k)%nat ->
  ld_xz (shift p m) h' = Done (V3 (vx (row_of h l k)) 0 (vz (row_of h l k))) h'.
Proof.
  intros B Sh Hk ->. unfold ld_xz, bnd. rewrite ld_shift. replace (3 * k + 0)%nat with (k * 3 + 0)%nat by lia. rewrite (ld2 h l h' p N 3) by (auto; lia).
  rewrite ld_shift. replace (3 * k + 2)%nat with (k * 3 + 2)%nat by lia. rewrite (ld2 h l h' p N 3) by (auto; lia). reflexivity.
Qed.
Lemma ret_charge_radial v charge N : floats h v [N; 3%nat] -> (4 <= N)%nat ->
  returns_value h (charge_radial_py v charge) (charge * source_sum (fun q => 2 * PI * vx q) (line_source (row_of h v 0) (row_of h v 1) (row_of h v 2) (row_of h v 3))).
Proof.
  intros (Av & Sv & Tv) N4. begin_value. unfold charge_radial_py. repeat rstep h. apply wp_value; [|assumption]. unfold c_charge_radial. change N_QUAD_2D with 16%nat.
  set (P := fun k => position_radial (Q2R (nth k gauss_points 0%Q)) (row_of h v 0) (row_of h v 2) (row_of h v 3) (row_of h v 1)).
  set (J := fun k => jacobian_radial (Q2R (nth k gauss_points 0%Q)) (row_of h v 0) (row_of h v 2) (row_of h v 3) (row_of h v 1)).
  rewrite (loop_pure _ (fun k s => s + 2 * PI * fst (P k) * Q2R (nth k gauss_weights 0%Q) * J k * charge)).
  - f_equal. rewrite (fold_sum (fun k => 2 * PI * fst (P k) * Q2R (nth k gauss_weights 0%Q) * J k * charge)). rewrite Rplus_0_l.
    assert (L : line_source (row_of h v 0) (row_of h v 1) (row_of h v 2) (row_of h v 3) = map (fun k => (Q2R (nth k gauss_weights 0%Q) * J k, V3 (fst (P k)) 0 (snd (P k)))) (arange 16)).
    { unfold line_source. rewrite (map2_nth _ _ _ 16 0 (0, 0)) by reflexivity. apply map_ext_in. intros k Hk. apply in_arange in Hk.
      unfold jacobian_buffer_radial, position_buffer_radial. rewrite (map2_nth _ _ _ 16 0%Q 0%Q) by reflexivity. rewrite nth_map_arange by exact Hk.
      rewrite (map_map_arange _ _ 16 0%Q) by reflexivity. rewrite nth_map_arange by exact Hk. reflexivity. }
    rewrite L. unfold source_sum. rewrite map_map. cbn [fst snd vx]. rewrite <- Rsum_scale. apply Rsum_map_ext. intros k _. ring.
  - intros k s Hk. unfold c_position_and_jacobian_radial.
    match goal with B : block ?hh ?p Float64 (contents h v) |- _ => 
      pose proof (ld_xz_row2 v hh p N 0 0 B Sv ltac:(lia) ltac:(lia)) as R0; pose proof (ld_xz_row2 v hh p N 2 6 B Sv ltac:(lia) ltac:(lia)) as R2;
      pose proof (ld_xz_row2 v hh p N 3 9 B Sv ltac:(lia) ltac:(lia)) as R3; pose proof (ld_xz_row2 v hh p N 1 3 B Sv ltac:(lia) ltac:(lia)) as R1 end.
    match type of R0 with ld_xz (shift ?p 0) ?hh = _ => assert (S0 : shift p 0 = p) by (destruct p; unfold shift; cbn; f_equal; lia) end. rewrite S0 in R0.
    unfold bnd. rewrite R0, R2, R3, R1. reflexivity.
Qed.

(** ** axial_coefficients_3d *)
Lemma flat_inj a b c d Q : (b < Q)%nat -> (d < Q)%nat -> (a * Q + b = c * Q + d)%nat -> a = c /\ b = d.
Proof. intros Hb Hd E. destruct (flat_index a b Q Hb) as [A1 A2]. destruct (flat_index c d Q Hd) as [C1 C2]. rewrite E in A1, A2. split; congruence. Qed.
Lemma flat_bound a b n Q : (a < n)%nat -> (b < Q)%nat -> (a * Q + b < n * Q)%nat.
Proof. nia. Qed.
Lemma nth_index4 n Q D F i k c e : (i < n)%nat -> (k < Q)%nat -> (c < D)%nat -> (e < F)%nat -> nth (((i * Q + k) * D + c) * F + e) (indices [n; Q; D; F]) [] = [i; k; c; e].
Proof.
  intros Hi Hk Hc He. rewrite <- (nth_flat [n; Q; D; F] [i; k; c; e]) by (cbn; tauto). f_equal. cbn [flat size fold_right]. ring.
Qed.
Lemma unflat4 n Q D F x : (x < size [n; Q; D; F])%nat -> exists i k c e, (i < n)%nat /\ (k < Q)%nat /\ (c < D)%nat /\ (e < F)%nat /\ x = (((i * Q + k) * D + c) * F + e)%nat.
Proof.
  intros Hx. assert (Hx' : (x < n * Q * D * F)%nat) by (cbn in Hx; nia). clear Hx.
  assert (F0 : F <> 0%nat) by (intros ->; lia). assert (D0 : D <> 0%nat) by (intros ->; lia). assert (Q0 : Q <> 0%nat) by (intros ->; lia).
  exists (x / F / D / Q)%nat, (x / F / D mod Q)%nat, (x / F mod D)%nat, (x mod F)%nat.
  split; [repeat (apply Nat.div_lt_upper_bound; [assumption|]); nia|]. split; [now apply Nat.mod_upper_bound|]. split; [now apply Nat.mod_upper_bound|]. split; [now apply Nat.mod_upper_bound|].
  pose proof (Nat.div_mod x F F0). pose proof (Nat.div_mod (x / F) D D0). pose proof (Nat.div_mod (x / F / D) Q Q0). 
  rewrite (Nat.mul_comm _ Q), <- H1. rewrite (Nat.mul_comm _ D), <- H0. rewrite (Nat.mul_comm _ F). exact H.
Qed.

(** the first loop fills the tables of angular factors *)
Lemma val_angles x X hh N M n1 n2 (F G : nat -> nat -> nat -> R) (Fv Gv : R -> R -> nat -> R) : at_ h X hh x -> nd_shape X = [N; 12%nat; 3%nat] -> p_buffer x <> n1 -> p_buffer x <> n2 -> n1 <> n2 -> (n1 < length hh)%nat -> (n2 < length hh)%nat ->
  (forall a k m, F a k m = Fv (item h X [a; k; 0%nat]) (item h X [a; k; 1%nat]) m) -> (forall a k m, G a k m = Gv (item h X [a; k; 0%nat]) (item h X [a; k; 1%nat]) m) ->
  for_each N (fun a => for_each 12 (fun k => for_each M (fun m =>
    u <~ ld x ((a * 12 + k) * 3) ;; v <~ ld x ((a * 12 + k) * 3 + 1) ;;
    st (mkptr n1 0) ((a * 12 + k) * M + m) (Fv u v m) ;;; st (mkptr n2 0) ((a * 12 + k) * M + m) (Gv u v m)))) (two hh n1 n2 (N * 12 * M) (N * 12 * M) (fun _ => 0) (fun _ => 0))
  = Done tt (two hh n1 n2 (N * 12 * M) (N * 12 * M) (fun c => F (c / M / 12) (c / M mod 12) (c mod M))%nat (fun c => G (c / M / 12) (c / M mod 12) (c mod M))%nat).
Proof.
  intros B Sh P1 P2 N12 H1 H2 HF HG.
  set (F' := fun c => F (c / M / 12)%nat (c / M mod 12)%nat (c mod M)%nat). set (G' := fun c => G (c / M / 12)%nat (c / M mod 12)%nat (c mod M)%nat). set (L := (N * 12 * M)%nat).
  set (s := fun c => two hh n1 n2 L L (fun m => if (m <? c)%nat then F' m else 0) (fun m => if (m <? c)%nat then G' m else 0)).
  assert (E0 : two hh n1 n2 L L (fun _ => 0) (fun _ => 0) = s 0%nat) by reflexivity.
  assert (E1 : two hh n1 n2 L L F' G' = s L).
  { apply two_ext; intros m Hm; rewrite (proj2 (Nat.ltb_lt _ _)) by lia; reflexivity. }
  rewrite E0, E1. unfold L. replace (N * 12 * M)%nat with (N * (12 * M))%nat by ring.
  apply (for_each_states (fun a => s (a * (12 * M))%nat)). intros a Ha.
  replace (s (S a * (12 * M))%nat) with (s (a * (12 * M) + 12 * M)%nat) by (f_equal; ring). replace (s (a * (12 * M))%nat) with (s (a * (12 * M) + 0 * M)%nat) by (f_equal; ring).
  apply (for_each_states (fun k => s (a * (12 * M) + k * M)%nat)). intros k Hk.
  replace (s (a * (12 * M) + S k * M)%nat) with (s ((a * 12 + k) * M + M)%nat) by (f_equal; ring). replace (s (a * (12 * M) + k * M)%nat) with (s ((a * 12 + k) * M + 0)%nat) by (f_equal; ring).
  apply (for_each_states (fun m => s ((a * 12 + k) * M + m)%nat)). intros m Hm.
  assert (Bs : at_ h X (s ((a * 12 + k) * M + m)%nat) x) by (now apply block_two).
  rewrite (bnd_done _ _ _ _ _ (ld_at3 h X _ x N 12 3 a k 0 _ Bs Sh Ha Hk ltac:(lia) ltac:(symmetry; apply Nat.add_0_r))).
  rewrite (bnd_done _ _ _ _ _ (ld_at3 h X _ x N 12 3 a k 1 _ Bs Sh Ha Hk ltac:(lia) eq_refl)).
  rewrite <- HF, <- HG. assert (Hc : ((a * 12 + k) * M + m < L)%nat) by (apply flat_bound; [now apply flat_bound|exact Hm]).
  unfold s. rewrite (bnd_done _ _ _ _ _ (st_two_left hh n1 n2 L L N12 H1 _ _ _ _ Hc)). rewrite (st_two_right hh n1 n2 L L H2) by exact Hc. f_equal.
  destruct (flat_index (a * 12 + k) m M Hm) as [D1 D2]. destruct (flat_index a k 12 Hk) as [D3 D4].
  apply two_ext; intros c Hc'; (destruct (Nat.eqb_spec c ((a * 12 + k) * M + m)) as [->|Ne];
    [rewrite (proj2 (Nat.ltb_lt _ _)) by lia; unfold F', G'; now rewrite D1, D2, D3, D4|destruct (Nat.ltb_spec c ((a * 12 + k) * M + m)), (Nat.ltb_spec c ((a * 12 + k) * M + S m)); try lia; reflexivity]).
Qed.

Lemma Rsum_zero (f : nat -> R) l : (forall k, In k l -> f k = 0) -> Rsum (map f l) = 0.
Proof. intros H. rewrite (Rsum_map_ext f (fun _ => 0)) by exact H. apply Rsum_const0. Qed.
(** the second loop adds the terms; [hh] holds the tables *)
Lemma val_coefficients Za Qa J X hh z q j x tc ts N N_z n (Fc Fs : nat -> nat -> nat -> R) (term : R -> R -> nat -> nat -> vec3 -> R) NU MM :
  at_ h Za hh z -> nd_shape Za = [N_z] -> at_ h Qa hh q -> nd_shape Qa = [N] -> at_ h J hh j -> nd_shape J = [N; 12%nat] -> at_ h X hh x -> nd_shape X = [N; 12%nat; 3%nat] ->
  block hh tc Float64 (cells (N * 12 * MM) (fun c => Fc (c / MM / 12) (c / MM mod 12) (c mod MM))%nat) -> block hh ts Float64 (cells (N * 12 * MM) (fun c => Fs (c / MM / 12) (c / MM mod 12) (c mod MM))%nat) ->
  p_buffer z <> n -> p_buffer q <> n -> p_buffer j <> n -> p_buffer x <> n -> p_buffer tc <> n -> p_buffer ts <> n -> (n < length hh)%nat ->
  for_each N_z (fun i => for_each N (fun a => for_each 12 (fun k =>
    y <~ ld3 (shift x ((a * 12 + k) * 3)) ;; zz <~ ld z i ;;
    for_each NU (fun nu => for_each MM (fun m =>
      w <~ ld j (a * 12 + k) ;;
      C <~ ld tc ((a * 12 + k) * MM + m) ;; S <~ ld ts ((a * 12 + k) * MM + m) ;;
      c <~ ld q a ;;
      st_add (mkptr n 0) (((i * 2 + 0) * NU + nu) * MM + m) (c * w * term C zz nu m y) ;;;
      st_add (mkptr n 0) (((i * 2 + 1) * NU + nu) * MM + m) (c * w * term S zz nu m y)))))) (put hh n (cells (N_z * 2 * NU * MM) (fun _ => 0)))
  = Done tt (put hh n (cells (N_z * 2 * NU * MM) (fun c => let m := (c mod MM)%nat in let nu := (c / MM mod NU)%nat in let s := (c / MM / NU mod 2)%nat in let i := (c / MM / NU / 2)%nat in
      Rsum (map (fun a => Rsum (map (fun k => item h Qa [a] * item h J [a; k] * term (if (s =? 0)%nat then Fc a k m else Fs a k m) (item h Za [i]) nu m (vertex_of h X a k)) (arange 12))) (arange N))))).
Proof.
  intros HZ SZ HQ SQ HJ SJ HX SX HC HS NZ NQ NJ NX NC NS Hn. set (L := (N_z * 2 * NU * MM)%nat).
  set (v := fun (C : nat -> nat -> nat -> R) i a k nu m => item h Qa [a] * item h J [a; k] * term (C a k m) (item h Za [i]) nu m (vertex_of h X a k)).
  set (t := fun i a k nu m c => (if (c =? ((i * 2 + 0) * NU + nu) * MM + m)%nat then v Fc i a k nu m else 0) + (if (c =? ((i * 2 + 1) * NU + nu) * MM + m)%nat then v Fs i a k nu m else 0)).
  rewrite (for_each_acc hh n L _ (fun i c => Rsum (map (fun a => Rsum (map (fun k => Rsum (map (fun nu => Rsum (map (fun m => t i a k nu m c) (arange MM))) (arange NU))) (arange 12))) (arange N)))).
  2:{ intros i g Hi. apply (for_each_acc hh n L _ (fun a c => Rsum (map (fun k => Rsum (map (fun nu => Rsum (map (fun m => t i a k nu m c) (arange MM))) (arange NU))) (arange 12)))). clear g.
      intros a g Ha. apply (for_each_acc hh n L _ (fun k c => Rsum (map (fun nu => Rsum (map (fun m => t i a k nu m c) (arange MM))) (arange NU)))). clear g. intros k g Hk.
      set (hp := put hh n (cells L g)). assert (BZ : at_ h Za hp z) by (now apply block_put). assert (BX : at_ h X hp x) by (now apply block_put).
      rewrite (bnd_done _ _ _ _ _ (ld3_row h X hp x N 12 a k _ BX SX Ha Hk eq_refl)). rewrite (bnd_done _ _ _ _ _ (ld1 h Za hp z N_z i BZ SZ Hi)).
      change (V3 (item h X [a; k; 0%nat]) (item h X [a; k; 1%nat]) (item h X [a; k; 2%nat])) with (vertex_of h X a k). clear BZ BX. unfold hp. clear hp.
      apply (for_each_acc hh n L _ (fun nu c => Rsum (map (fun m => t i a k nu m c) (arange MM)))). clear g. intros nu g Hnu.
      apply (for_each_acc hh n L _ (fun m => t i a k nu m)). clear g. intros m g Hm.
      set (hp := put hh n (cells L g)). assert (BJ : at_ h J hp j) by (now apply block_put). assert (BQ : at_ h Qa hp q) by (now apply block_put).
      assert (Hc : ((a * 12 + k) * MM + m < N * 12 * MM)%nat) by (apply flat_bound; [now apply flat_bound|exact Hm]).
      destruct (flat_index (a * 12 + k) m MM Hm) as [D1 D2]. destruct (flat_index a k 12 Hk) as [D3 D4].
      rewrite (bnd_done _ _ _ _ _ (ld2 h J hp j N 12 a k BJ SJ Ha Hk)).
      rewrite (bnd_done _ _ _ _ _ (ld_block hp tc _ _ (block_put _ _ _ _ _ _ NC HC) ltac:(rewrite cells_length; exact Hc))). rewrite (bnd_done _ _ _ _ _ (ld_block hp ts _ _ (block_put _ _ _ _ _ _ NS HS) ltac:(rewrite cells_length; exact Hc))).
      rewrite !nth_cells by exact Hc. rewrite D1, D2, D3, D4. rewrite (bnd_done _ _ _ _ _ (ld1 h Qa hp q N a BQ SQ Ha)). unfold hp.
      assert (O : forall s, (s < 2)%nat -> (((i * 2 + s) * NU + nu) * MM + m < L)%nat) by (intros; unfold L; apply flat_bound; [apply flat_bound; [apply flat_bound|]|]; assumption).
      rewrite (bnd_done _ _ _ _ _ (st_add_cells hh n L _ _ _ Hn (O 0%nat ltac:(lia)))). rewrite (st_add_cells hh n L _ _ _ Hn (O 1%nat ltac:(lia))).
      f_equal. f_equal. apply cells_ext. intros c _. unfold t. apply Rplus_assoc. }
  f_equal. f_equal. apply cells_ext. intros c Hc. cbv zeta. rewrite Rplus_0_l.
  destruct (unflat4 N_z 2 NU MM c ltac:(cbn; unfold L in Hc; nia)) as (i & s & nu & m & Hi & Hs & Hnu & Hm & ->).
  destruct (flat_index ((i * 2 + s) * NU + nu) m MM Hm) as [-> ->]. destruct (flat_index (i * 2 + s) nu NU Hnu) as [-> ->]. destruct (flat_index i s 2 Hs) as [-> ->].
  assert (Z : forall i' a k nu' m', (nu' < NU)%nat -> (m' < MM)%nat -> i' <> i \/ nu' <> nu \/ m' <> m -> t i' a k nu' m' (((i * 2 + s) * NU + nu) * MM + m)%nat = 0).
  { intros i' a k nu' m' Hnu' Hm' Ne. unfold t.
    destruct (Nat.eqb_spec (((i * 2 + s) * NU + nu) * MM + m) (((i' * 2 + 0) * NU + nu') * MM + m')) as [E|_].
    { destruct (flat_inj _ _ _ _ _ Hm Hm' E) as [E1 ?]. destruct (flat_inj _ _ _ _ _ Hnu Hnu' E1) as [E2 ?]. lia. }
    destruct (Nat.eqb_spec (((i * 2 + s) * NU + nu) * MM + m) (((i' * 2 + 1) * NU + nu') * MM + m')) as [E|_]; [|lra].
    destruct (flat_inj _ _ _ _ _ Hm Hm' E) as [E1 ?]. destruct (flat_inj _ _ _ _ _ Hnu Hnu' E1) as [E2 ?]. lia. }
  rewrite (Rsum_pick _ N_z i Hi).
  2:{ intros i' _ Ne. apply Rsum_zero. intros a _. apply Rsum_zero. intros k _. apply Rsum_zero. intros nu' Hnu'. apply in_arange in Hnu'. apply Rsum_zero. intros m' Hm'. apply in_arange in Hm'. apply Z; try assumption. now left. }
  apply Rsum_map_ext. intros a _. apply Rsum_map_ext. intros k _.
  rewrite (Rsum_pick _ NU nu Hnu).
  2:{ intros nu' Hnu' Ne. apply Rsum_zero. intros m' Hm'. apply in_arange in Hm'. apply Z; try assumption. right; now left. }
  rewrite (Rsum_pick _ MM m Hm).
  2:{ intros m' Hm' Ne. apply Z; try assumption. right; now right. }
  unfold t. destruct s as [|[|s]]; [| |lia]; cbn [Nat.eqb].
  - rewrite Nat.eqb_refl. rewrite (proj2 (Nat.eqb_neq _ _)); [unfold v; ring|]. intros E. destruct (flat_inj _ _ _ _ _ Hm Hm E) as [E1 _]. destruct (flat_inj _ _ _ _ _ Hnu Hnu E1) as [E2 _]. lia.
  - rewrite Nat.eqb_refl. rewrite (proj2 (Nat.eqb_neq _ _)); [unfold v; ring|]. intros E. destruct (flat_inj _ _ _ _ _ Hm Hm E) as [E1 _]. destruct (flat_inj _ _ _ _ _ Hnu Hnu E1) as [E2 _]. lia.
Qed.

(** item (i, s, nu, m) of the table, s = 0 for the cosines and 1 for the sines *)
Definition coefficient_table (s : list nat) (f : nat -> bool -> nat -> nat -> R) : list R :=
  tabulated s (fun idx => match idx with [i; sc; nu; m] => f i (negb (sc =? 0)%nat) nu m | _ => 0 end).
Lemma put_two_zeros hh n1 n2 n3 L L3 : nth_error hh n1 = Some (mkbuffer Float64 (repeat 0 L)) -> nth_error hh n2 = Some (mkbuffer Float64 (repeat 0 L)) -> nth_error hh n3 = Some (mkbuffer Float64 (repeat 0 L3)) ->
  n1 <> n3 -> n2 <> n3 -> forall g1 g2, put (two hh n1 n2 L L g1 g2) n3 (cells L3 (fun _ => 0)) = two hh n1 n2 L L g1 g2.
Proof. intros E1 E2 E3 N1 N2 g1 g2. rewrite <- zeros_cells. apply put_same. unfold two, put. rewrite !nth_upd_other by assumption. exact E3. Qed.
Lemma block_self hh n L g : (n < length hh)%nat -> block (put hh n (cells L g)) (mkptr n 0) Float64 (cells L g).
Proof.
  intros Hn i Hi. unfold put. erewrite load_in; [|apply nth_upd; exact Hn|reflexivity|cbn [p_offset b_cells]; lia]. cbn [p_offset b_cells]. rewrite Z.add_0_l, Nat2Z.id. reflexivity.
Qed.
Lemma ret_axial_coefficients_3d q j x z N N_z : floats h q [N] -> floats h j [N; 12%nat] -> floats h x [N; 12%nat; 3%nat] -> floats h z [N_z] ->
  returns_array h (axial_coefficients_3d_py q j x z) [N_z; 2%nat; NU_MAX; M_MAX]
    (coefficient_table [N_z; 2%nat; NU_MAX; M_MAX] (fun i sine nu m => axial_coefficient sine (item h z [i]) (triangle_charges h q j x) nu m)).
Proof.
  intros (Aq & Sq & Tq) (Aj & Sj & Tj) (Ax & Sx & Tx) (Az & Sz & Tz). begin_array. unfold axial_coefficients_3d_py, c_axial_coefficients_3d. change N_TRIANGLE_QUAD with 12%nat.
  generalize NU_MAX M_MAX. intros NU MM. repeat rstep h.
  assert (Q12 : size [N; 12%nat; MM] = (N * 12 * MM)%nat) by (cbn [size fold_right]; ring).
  assert (Qo : size [N_z; 2%nat; NU; MM] = (N_z * 2 * NU * MM)%nat) by (cbn [size fold_right]; ring).
  rewrite Q12 in *. rewrite Qo in *.
  match goal with |- wp ?hh _ _ => set (hf := hh) in * end.
  match goal with |- context [ld {| p_buffer := length ?a; p_offset := 0 |}] => set (n1 := length a) end.
  match goal with |- context [ld {| p_buffer := length ?a; p_offset := 0 |}] => lazymatch a with h => fail | _ => set (n2 := length a) end end.
  set (n3 := length h).
  assert (X0 : n1 = S n3 /\ n2 = S n1) by (unfold n1, n2, n3; lia).
  assert (L3 : (n3 < length hf)%nat) by (unfold n3; apply nth_error_Some; congruence). assert (L1' : (n1 < length hf)%nat) by (unfold n1; apply nth_error_Some; congruence). assert (L2' : (n2 < length hf)%nat) by (unfold n2; apply nth_error_Some; congruence).
  assert (Ap : forall p, (p_buffer p < n3)%nat \/ (S (S (S n3)) <= p_buffer p)%nat -> p_buffer p <> n1 /\ p_buffer p <> n2 /\ p_buffer p <> n3) by (intros; lia).
  match goal with Bx : block hf ?p Float64 (contents h x), Bj : block hf ?pj Float64 (contents h j), Bq : block hf ?pq Float64 (contents h q), Bz : block hf ?pz Float64 (contents h z) |- _ =>
    destruct (Ap p) as (Px1 & Px2 & Px3); [lengths; match goal with A : apart _ _ p |- _ => destruct A end; lia|];
    destruct (Ap pj) as (Pj1 & Pj2 & Pj3); [lengths; match goal with A : apart _ _ pj |- _ => destruct A end; lia|];
    destruct (Ap pq) as (Pq1 & Pq2 & Pq3); [lengths; match goal with A : apart _ _ pq |- _ => destruct A end; lia|];
    destruct (Ap pz) as (Pz1 & Pz2 & Pz3); [lengths; match goal with A : apart _ _ pz |- _ => destruct A end; lia|];
    pose proof (val_angles p x hf N MM n1 n2 (fun a k m => trig_cos (V3 (item h x [a; k; 0%nat]) (item h x [a; k; 1%nat]) 0) m) (fun a k m => trig_sin (V3 (item h x [a; k; 0%nat]) (item h x [a; k; 1%nat]) 0) m)
      (fun u v m => trig_cos (V3 u v 0) m) (fun u v m => trig_sin (V3 u v 0) m) Bx Sx Px1 Px2 ltac:(lia) L1' L2' ltac:(reflexivity) ltac:(reflexivity)) as VA
  end.
  rewrite two_zeros in VA by assumption.
  match type of VA with _ = Done tt ?g => set (ht := g) in * end.
  assert (Lt : length ht = length hf) by (unfold ht, two; now rewrite !put_length).
  match goal with Bx : block hf ?p Float64 (contents h x), Bj : block hf ?pj Float64 (contents h j), Bq : block hf ?pq Float64 (contents h q), Bz : block hf ?pz Float64 (contents h z) |- _ =>
    pose proof (val_coefficients z q j x ht pz pq pj p (mkptr n1 0) (mkptr n2 0) N N_z n3 (fun a k m => trig_cos (V3 (item h x [a; k; 0%nat]) (item h x [a; k; 1%nat]) 0) m) (fun a k m => trig_sin (V3 (item h x [a; k; 0%nat]) (item h x [a; k; 1%nat]) 0) m)
      (fun C z nu m y => axial_term (fun _ _ => C) z nu m y) NU MM
      ltac:(now apply block_two) Sz ltac:(now apply block_two) Sq ltac:(now apply block_two) Sj ltac:(now apply block_two) Sx
      ltac:(unfold ht, two; rewrite put_comm by lia; apply block_self; now rewrite put_length) ltac:(unfold ht, two; apply block_self; now rewrite put_length)
      Pz3 Pq3 Pj3 Px3 ltac:(cbn; lia) ltac:(cbn; lia) ltac:(lia)) as VC
  end.
  unfold ht in VC at 1. rewrite put_two_zeros in VC by (assumption || lia). fold ht in VC.
  eapply wp_done; [rewrite (bnd_done _ _ _ _ _ VA); exact VC|]. apply wp_ret.
  split; [apply extends_put; [|unfold n3; lia]; unfold ht, two; apply extends_put; [apply extends_put; [assumption|lia]|lia]|].
  unfold coefficient_table. rewrite tabulated_cells, Qo.
  match goal with |- is_array (put ht n3 (cells ?L ?g)) _ _ (cells _ ?g') => rewrite (cells_ext L g g') end.
  2:{ intros c Hc. destruct (unflat4 N_z 2 NU MM c ltac:(rewrite Qo; exact Hc)) as (i & s & nu & m & Hi & Hs & Hnu & Hm & ->).
      rewrite nth_index4 by assumption. cbv zeta. destruct (flat_index ((i * 2 + s) * NU + nu) m MM Hm) as [-> ->]. destruct (flat_index (i * 2 + s) nu NU Hnu) as [-> ->]. destruct (flat_index i s 2 Hs) as [-> ->].
      unfold axial_coefficient, triangle_charges. rewrite double_sum, Sq. cbn [hd]. destruct s as [|[|s]]; [reflexivity|reflexivity|lia]. }
  apply put_array; [reflexivity|lia|]. now rewrite cells_length, Qo.
Qed.

End Traj.
