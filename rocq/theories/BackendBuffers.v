(** Calls that fill the buffers of the effective point charges. *)
From Coq Require Import Reals Lra QArith Qreals.
From Verif Require Import Base Vec GeomModel Tables QuadModel MemModel FieldModel SeriesModel Axial3DModel MatrixModel MemFacts BackendModel BackendSafe BackendValues BackendCalls BackendReturns BackendTables.
Local Open Scope R_scope.
Local Open Scope mem_scope.

Lemma put_comm h a b x y : a <> b -> put (put h a x) b y = put (put h b y) a x.
Proof. intros N. unfold put. revert a b N. induction h as [|z h IH]; intros [|a] [|b] N; cbn; try reflexivity; [congruence|]. f_equal. apply IH. lia. Qed.
Section Two.
Variables (hh : heap) (n1 n2 L1 L2 : nat).
Hypothesis N12 : n1 <> n2.  Hypothesis H1 : (n1 < length hh)%nat.  Hypothesis H2 : (n2 < length hh)%nat.
Definition two (g1 g2 : nat -> R) : heap := put (put hh n1 (cells L1 g1)) n2 (cells L2 g2).
Lemma st_two_right g1 g2 i v : (i < L2)%nat -> st (mkptr n2 0) i v (two g1 g2) = Done tt (two g1 (fun m => if (m =? i)%nat then v else g2 m)).
Proof. intros Hi. unfold two. rewrite st_cells; [reflexivity|now rewrite put_length|exact Hi]. Qed.
Lemma st_two_left g1 g2 i v : (i < L1)%nat -> st (mkptr n1 0) i v (two g1 g2) = Done tt (two (fun m => if (m =? i)%nat then v else g1 m) g2).
Proof. intros Hi. unfold two. rewrite put_comm by exact N12. rewrite st_cells; [|now rewrite put_length|exact Hi]. now rewrite put_comm by congruence. Qed.
Lemma block_two g1 g2 p t c : p_buffer p <> n1 -> p_buffer p <> n2 -> block hh p t c -> block (two g1 g2) p t c.
Proof. intros. unfold two. apply block_put; [assumption|]. now apply block_put. Qed.
Lemma two_ext g1 g2 k1 k2 : (forall m, (m < L1)%nat -> g1 m = k1 m) -> (forall m, (m < L2)%nat -> g2 m = k2 m) -> two g1 g2 = two k1 k2.
Proof. intros A B. unfold two. now rewrite (cells_ext L1 g1 k1 A), (cells_ext L2 g2 k2 B). Qed.
End Two.
Lemma for_each_states (s : nat -> heap) body N : (forall k, (k < N)%nat -> body k (s k) = Done tt (s (S k))) -> for_each N body (s 0%nat) = Done tt (s N).
Proof.
  intros H. unfold for_each, loop. enough (G : forall n i, (forall k, (i <= k < i + n)%nat -> body k (s k) = Done tt (s (S k))) -> loop_from i n (fun k (_ : unit) => body k) tt (s i) = Done tt (s (i + n)%nat)) by (apply (G N 0%nat); intros; apply H; lia).
  induction n as [|n IH]; intros i G; cbn [loop_from]; [now rewrite Nat.add_0_r|]. rewrite (bnd_done _ _ _ _ _ (G i ltac:(lia))). replace (i + S n)%nat with (S i + n)%nat by lia. apply IH. intros. apply G. lia.
Qed.
Lemma map2_nth {A B C} (f : A -> B -> C) a b n da db : length a = n -> length b = n -> map2 f a b = map (fun k => f (nth k a da) (nth k b db)) (arange n).
Proof.
  intros <-. revert b. induction a as [|x a IH]; intros [|y b] H; cbn in H; try discriminate; [reflexivity|]. cbn [map2 length]. unfold arange. cbn [seq map nth]. f_equal. rewrite (IH b) by lia. unfold arange. rewrite <- seq_shift, map_map. reflexivity.
Qed.
Lemma nth_map_arange {A} (f : nat -> A) n k d : (k < n)%nat -> nth k (map f (arange n)) d = f k.
Proof. intros H. rewrite (nth_indep _ d (f 0%nat)) by (rewrite map_length; unfold arange; rewrite seq_length; exact H). rewrite map_nth. unfold arange. now rewrite seq_nth. Qed.
Lemma map_map_arange {A B} (f : A -> B) l n d : length l = n -> map f l = map (fun k => f (nth k l d)) (arange n).
Proof. intros <-. induction l as [|x l IH]; [reflexivity|]. cbn [length]. unfold arange. cbn [seq map nth]. f_equal. rewrite IH. unfold arange. rewrite <- seq_shift, map_map. reflexivity. Qed.

Section Buffers.
Variable h : heap.
Local Notation vertex := (vertex_of h).
Definition jac_at (l : ndarray) (i k : nat) : R := nth k (jacobian_buffer_radial (vertex l i 0) (vertex l i 1) (vertex l i 2) (vertex l i 3)) 0.
Definition pos_at (l : ndarray) (i k : nat) : R * R := nth k (position_buffer_radial (vertex l i 0) (vertex l i 1) (vertex l i 2) (vertex l i 3)) (0, 0).
Lemma jac_at_eq l i k : (k < 16)%nat ->
  jac_at l i k = Q2R (nth k gauss_weights 0%Q) * jacobian_radial (Q2R (nth k gauss_points 0%Q)) (vertex l i 0) (vertex l i 2) (vertex l i 3) (vertex l i 1).
Proof. intros H. unfold jac_at, jacobian_buffer_radial. rewrite (map2_nth _ _ _ 16 0%Q 0%Q) by reflexivity. now rewrite nth_map_arange. Qed.
Lemma pos_at_eq l i k : (k < 16)%nat -> pos_at l i k = position_radial (Q2R (nth k gauss_points 0%Q)) (vertex l i 0) (vertex l i 2) (vertex l i 3) (vertex l i 1).
Proof. intros H. unfold pos_at, position_buffer_radial. rewrite (map_map_arange _ _ 16 0%Q) by reflexivity. now rewrite nth_map_arange. Qed.
Lemma line_source_at l i : line_source (vertex l i 0) (vertex l i 1) (vertex l i 2) (vertex l i 3) = map (fun k => (jac_at l i k, V3 (fst (pos_at l i k)) 0 (snd (pos_at l i k)))) (arange 16).
Proof. unfold line_source. rewrite (map2_nth _ _ _ 16 0 (0, 0)) by reflexivity. reflexivity. Qed.
(** the points of line [i] *)
Lemma ld_xz_row l h' p N i k m : at_ h l h' p -> nd_shape l = [N; 4%nat; 3%nat] -> (i < N)%nat -> (k < 4)%nat -> m = (12 * i + 3 * k)%nat ->
  ld_xz (shift p m) h' = Done (V3 (vx (vertex l i k)) 0 (vz (vertex l i k))) h'.
Proof.
  intros B S Hi Hk ->. unfold ld_xz, bnd. rewrite ld_shift, (ld_at3 h l h' p N 4 3 i k 0) by (auto; lia). rewrite ld_shift, (ld_at3 h l h' p N 4 3 i k 2) by (auto; lia). reflexivity.
Qed.
Lemma shift_shift p a b : shift (shift p a) b = shift p (a + b). Proof. unfold shift. cbn. f_equal. lia. Qed.
Lemma line_jacobian_row alpha l h' p N i : at_ h l h' p -> nd_shape l = [N; 4%nat; 3%nat] -> (i < N)%nat ->
  c_position_and_jacobian_radial alpha (shift p (12 * i)) (shift (shift p (12 * i)) 6) (shift (shift p (12 * i)) 9) (shift (shift p (12 * i)) 3) h'
  = Done (position_radial alpha (vertex l i 0) (vertex l i 2) (vertex l i 3) (vertex l i 1), jacobian_radial alpha (vertex l i 0) (vertex l i 2) (vertex l i 3) (vertex l i 1)) h'.
Proof.
  intros B S Hi. unfold c_position_and_jacobian_radial. rewrite !shift_shift.
  rewrite (bnd_done _ _ _ _ _ (ld_xz_row l h' p N i 0 (12 * i) B S Hi ltac:(lia) ltac:(lia))). rewrite (bnd_done _ _ _ _ _ (ld_xz_row l h' p N i 2 (12 * i + 6) B S Hi ltac:(lia) ltac:(lia))).
  rewrite (bnd_done _ _ _ _ _ (ld_xz_row l h' p N i 3 (12 * i + 9) B S Hi ltac:(lia) ltac:(lia))). rewrite (bnd_done _ _ _ _ _ (ld_xz_row l h' p N i 1 (12 * i + 3) B S Hi ltac:(lia) ltac:(lia))). reflexivity.
Qed.
Lemma line_normal_row alpha l h' p N i : at_ h l h' p -> nd_shape l = [N; 4%nat; 3%nat] -> (i < N)%nat ->
  c_higher_order_normal_radial alpha (shift p (12 * i)) (shift (shift p (12 * i)) 6) (shift (shift p (12 * i)) 9) (shift (shift p (12 * i)) 3) h'
  = Done (higher_order_normal_radial alpha (vertex l i 0) (vertex l i 2) (vertex l i 3) (vertex l i 1)) h'.
Proof.
  intros B S Hi. unfold c_higher_order_normal_radial. rewrite !shift_shift.
  rewrite (bnd_done _ _ _ _ _ (ld_xz_row l h' p N i 0 (12 * i) B S Hi ltac:(lia) ltac:(lia))). rewrite (bnd_done _ _ _ _ _ (ld_xz_row l h' p N i 2 (12 * i + 6) B S Hi ltac:(lia) ltac:(lia))).
  rewrite (bnd_done _ _ _ _ _ (ld_xz_row l h' p N i 3 (12 * i + 9) B S Hi ltac:(lia) ltac:(lia))). rewrite (bnd_done _ _ _ _ _ (ld_xz_row l h' p N i 1 (12 * i + 3) B S Hi ltac:(lia) ltac:(lia))). reflexivity.
Qed.
Lemma divmod a b Q : (b < Q)%nat -> ((a * Q + b) / Q = a /\ (a * Q + b) mod Q = b)%nat.
Proof. apply flat_index. Qed.
Lemma val_fill_radial l hh p N n1 n2 : at_ h l hh p -> nd_shape l = [N; 4%nat; 3%nat] -> p_buffer p <> n1 -> p_buffer p <> n2 -> n1 <> n2 -> (n1 < length hh)%nat -> (n2 < length hh)%nat ->
  c_fill_jacobian_buffer_radial (mkptr n1 0) (mkptr n2 0) p N (two hh n1 n2 (N * 16) (N * 16 * 2) (fun _ => 0) (fun _ => 0))
  = Done tt (two hh n1 n2 (N * 16) (N * 16 * 2) (fun m => jac_at l (m / 16) (m mod 16))
       (fun m => let rz := pos_at l (m / 2 / 16) (m / 2 mod 16) in if (m mod 2 =? 0)%nat then fst rz else snd rz)).
Proof.
  intros B Sh P1 P2 N12 H1 H2. set (F := fun m => jac_at l (m / 16) (m mod 16)). set (G := fun m => let rz := pos_at l (m / 2 / 16) (m / 2 mod 16) in if (m mod 2 =? 0)%nat then fst rz else snd rz).
  set (s := fun c => two hh n1 n2 (N * 16) (N * 16 * 2) (fun m => if (m <? c)%nat then F m else 0) (fun m => if (m <? c * 2)%nat then G m else 0)).
  assert (E0 : two hh n1 n2 (N * 16) (N * 16 * 2) (fun _ => 0) (fun _ => 0) = s 0%nat) by reflexivity.
  assert (E1 : two hh n1 n2 (N * 16) (N * 16 * 2) F G = s (N * 16)%nat).
  { apply two_ext; intros m Hm; rewrite (proj2 (Nat.ltb_lt _ _)) by lia; reflexivity. }
  rewrite E0, E1. unfold c_fill_jacobian_buffer_radial. change N_QUAD_2D with 16%nat.
  apply (for_each_states (fun i => s (i * 16)%nat)). intros i Hi. replace (S i * 16)%nat with (i * 16 + 16)%nat by lia. replace (s (i * 16)%nat) with (s (i * 16 + 0)%nat) by (now rewrite Nat.add_0_r).
  apply (for_each_states (fun k => s (i * 16 + k)%nat)). intros k Hk. cbv zeta.
  assert (Bs : at_ h l (s (i * 16 + k)%nat) p) by (now apply block_two). rewrite (bnd_done _ _ _ _ _ (line_jacobian_row _ l _ p N i Bs Sh Hi)). unfold fst, snd. rewrite <- (pos_at_eq l i k Hk), <- (jac_at_eq l i k Hk).
  unfold s. assert (i * 16 + k < N * 16)%nat by nia.
  rewrite (bnd_done _ _ _ _ _ (st_two_left hh n1 n2 (N * 16) (N * 16 * 2) N12 H1 _ _ (i * 16 + k) _ ltac:(lia))).
  rewrite (bnd_done _ _ _ _ _ (st_two_right hh n1 n2 (N * 16) (N * 16 * 2) H2 _ _ ((i * 16 + k) * 2) _ ltac:(lia))). rewrite (st_two_right hh n1 n2 (N * 16) (N * 16 * 2) H2) by lia.
  f_equal. apply two_ext; intros m Hm.
  - destruct (Nat.eqb_spec m (i * 16 + k)) as [->|Ne].
    + rewrite (proj2 (Nat.ltb_lt _ _)) by lia. unfold F. destruct (divmod i k 16 Hk) as [-> ->]. reflexivity.
    + destruct (Nat.ltb_spec m (i * 16 + k)), (Nat.ltb_spec m (i * 16 + S k)); try lia; reflexivity.
  - destruct (Nat.eqb_spec m ((i * 16 + k) * 2 + 1)) as [->|Ne]; [|destruct (Nat.eqb_spec m ((i * 16 + k) * 2)) as [->|Ne2]].
    + rewrite (proj2 (Nat.ltb_lt _ _)) by lia. unfold G. destruct (divmod (i * 16 + k) 1 2 ltac:(lia)) as [-> ->]. destruct (divmod i k 16 Hk) as [-> ->]. reflexivity.
    + rewrite (proj2 (Nat.ltb_lt _ _)) by lia. unfold G. replace ((i * 16 + k) * 2)%nat with ((i * 16 + k) * 2 + 0)%nat by lia. destruct (divmod (i * 16 + k) 0 2 ltac:(lia)) as [-> ->]. destruct (divmod i k 16 Hk) as [-> ->]. reflexivity.
    + destruct (Nat.ltb_spec m ((i * 16 + k) * 2)), (Nat.ltb_spec m ((i * 16 + S k) * 2)); try lia; reflexivity.
Qed.

Lemma item2 h' a n Q g i k : is_array h' a [n; Q] (cells (n * Q) g) -> (i < n)%nat -> (k < Q)%nat -> item h' a [i; k] = g (i * Q + k)%nat.
Proof. intros (_ & S & _ & C) Hi Hk. rewrite <- (nth_contents2 h' a n Q i k S Hi Hk), C. apply nth_cells. nia. Qed.
Lemma item3 h' a n Q D g i k c : is_array h' a [n; Q; D] (cells (n * Q * D) g) -> (i < n)%nat -> (k < Q)%nat -> (c < D)%nat -> item h' a [i; k; c] = g ((i * Q + k) * D + c)%nat.
Proof. intros (_ & S & _ & C) Hi Hk Hc. rewrite <- (nth_contents3 h' a n Q D i k c S Hi Hk Hc), C. apply nth_cells. now apply flat3_lt. Qed.
Lemma is_array_floats h' a s c : is_array h' a s c -> floats h' a s. Proof. intros (A & S & T & _). split; [exact A|]. split; assumption. Qed.
(** two new arrays, made at [h1] and [h2], that have been filled *)
Lemma two_arrays h0 h1 h2 hh s1 s2 g1 g2 : extends h0 h1 -> extends h0 h2 -> extends h0 hh -> (length h1 < length hh)%nat -> (length h2 < length hh)%nat -> length h1 <> length h2 ->
  let h' := two hh (length h1) (length h2) (size s1) (size s2) g1 g2 in
  extends h0 h' /\ is_array h' (MemFacts.fresh h1 s1 Float64) s1 (cells (size s1) g1) /\ is_array h' (MemFacts.fresh h2 s2 Float64) s2 (cells (size s2) g2).
Proof.
  intros X1 X2 X L1 L2 N h'. pose proof (extends_length _ _ X1). pose proof (extends_length _ _ X2). split; [|split].
  - apply extends_put; [|lia]. apply extends_put; [exact X|lia].
  - unfold h', two. rewrite put_comm by exact N. apply put_array; [reflexivity|now rewrite put_length|apply cells_length].
  - apply put_array; [reflexivity|now rewrite put_length|apply cells_length].
Qed.
Lemma two_zeros hh n1 n2 L1 L2 : nth_error hh n1 = Some (mkbuffer Float64 (repeat 0 L1)) -> nth_error hh n2 = Some (mkbuffer Float64 (repeat 0 L2)) -> two hh n1 n2 L1 L2 (fun _ => 0) (fun _ => 0) = hh.
Proof. intros E1 E2. unfold two. rewrite <- !zeros_cells. rewrite (put_same hh n1) by exact E1. now apply put_same. Qed.
(** The two buffers that a call returns. *)
Definition returns_buffers (m : M (ndarray * ndarray)) (N Q D : nat) (source : nat -> source) : Prop :=
  exists j x h', m h = Done (j, x) h' /\ extends h h' /\ floats h' j [N; Q] /\ floats h' x [N; Q; D] /\
    forall i, (i < N)%nat -> map (fun k => (item h' j [i; k], match D with 2%nat => V3 (item h' x [i; k; 0%nat]) 0 (item h' x [i; k; 1%nat]) | _ => vertex_of h' x i k end)) (arange Q) = source i.
Lemma ret_fill_radial l N : floats h l [N; 4%nat; 3%nat] -> in_plane h l ->
  returns_buffers (fill_jacobian_buffer_radial_py l) N 16 2 (fun i => line_source (vertex l i 0) (vertex l i 1) (vertex l i 2) (vertex l i 3)).
Proof.
  intros (Al & Sl & Tl) Pl. enough (W : wp h (fill_jacobian_buffer_radial_py l) (fun jx h' => extends h h' /\ floats h' (fst jx) [N; 16%nat] /\ floats h' (snd jx) [N; 16%nat; 2%nat] /\
    forall i, (i < N)%nat -> map (fun k => (item h' (fst jx) [i; k], V3 (item h' (snd jx) [i; k; 0%nat]) 0 (item h' (snd jx) [i; k; 1%nat]))) (arange 16) = line_source (vertex l i 0) (vertex l i 1) (vertex l i 2) (vertex l i 3))).
  { destruct W as ([j x] & h' & E & X & F1 & F2 & R). exists j, x, h'. repeat (split; [assumption|]). exact R. }
  pose proof (extends_refl h). unfold fill_jacobian_buffer_radial_py. change N_QUAD_2D with 16%nat. repeat rstep h.
  eapply wp_middle; [exact Al|assumption|exact Sl|lia|exact Pl|]. apply wp_assert; [reflexivity|]. repeat rstep h.
  match goal with |- wp ?hh (bnd (c_fill_jacobian_buffer_radial (mkptr ?a 0) (mkptr ?b 0) ?p N) _) _ =>
    assert (Ha : (a < length hh)%nat) by (apply nth_error_Some; congruence); assert (Hb : (b < length hh)%nat) by (apply nth_error_Some; congruence);
    assert (Nab : a <> b) by (lengths; lia); assert (Pa : p_buffer p <> a) by elsewhere; assert (Pb : p_buffer p <> b) by elsewhere;
    assert (V := val_fill_radial l hh p N a b ltac:(assumption) Sl Pa Pb Nab Ha Hb)
  end.
  rewrite two_zeros in V; [|match goal with E : nth_error ?hh ?n = _ |- nth_error ?hh ?n = _ => rewrite E end; do 3 f_equal; cbn; lia..].
  eapply wp_done; [exact V|]. clear V.
  apply wp_ret. cbn [fst snd].
  match goal with |- context [two ?hh (length ?h1) (length ?h2) _ _ ?g1 ?g2] => destruct (two_arrays h h1 h2 hh [N; 16%nat] [N; 16%nat; 2%nat] g1 g2) as (X & A1 & A2); try assumption end.
  replace (size [N; 16%nat]) with (N * 16)%nat in * by (cbn; lia). replace (size [N; 16%nat; 2%nat]) with (N * 16 * 2)%nat in * by (cbn; lia).
  split; [exact X|]. split; [eapply is_array_floats; exact A1|]. split; [eapply is_array_floats; exact A2|]. intros i Hi. rewrite line_source_at. apply map_ext_in. intros k Hk. apply in_arange in Hk.
  rewrite (item2 _ _ _ _ _ _ _ A1 Hi Hk), (item3 _ _ _ _ _ _ _ _ 0 A2 Hi Hk), (item3 _ _ _ _ _ _ _ _ 1 A2 Hi Hk) by lia. cbv beta zeta.
  destruct (divmod i k 16 Hk) as [-> ->]. destruct (divmod (i * 16 + k) 0 2 ltac:(lia)) as [-> ->]. destruct (divmod (i * 16 + k) 1 2 ltac:(lia)) as [-> ->]. destruct (divmod i k 16 Hk) as [-> ->]. reflexivity.
Qed.

(** ** Triangles *)
Definition jac3_at (l : ndarray) (i k : nat) : R := nth k (jacobian_buffer_3d (vertex l i 0) (vertex l i 1) (vertex l i 2)) 0.
Definition pos3_at (l : ndarray) (i k : nat) : vec3 := nth k (position_buffer_3d (vertex l i 0) (vertex l i 1) (vertex l i 2)) vzero.
Lemma combine_map2 {A B} (a : list A) (b : list B) : combine a b = map2 pair a b.
Proof. revert b. induction a as [|x a IH]; intros [|y b]; cbn; try reflexivity. now rewrite IH. Qed.
Lemma triangle_source_at l i : triangle_source (vertex l i 0) (vertex l i 1) (vertex l i 2) = map (fun k => (jac3_at l i k, pos3_at l i k)) (arange 12).
Proof. unfold triangle_source. rewrite combine_map2, (map2_nth _ _ _ 12 0 vzero) by reflexivity. reflexivity. Qed.
Definition coordinate (v : vec3) (c : nat) : R := match c with O => vx v | 1%nat => vy v | _ => vz v end.
Lemma val_fill_3d l hh p N n1 n2 : at_ h l hh p -> nd_shape l = [N; 3%nat; 3%nat] -> p_buffer p <> n1 -> p_buffer p <> n2 -> n1 <> n2 -> (n1 < length hh)%nat -> (n2 < length hh)%nat ->
  c_fill_jacobian_buffer_3d (mkptr n1 0) (mkptr n2 0) p N (two hh n1 n2 (N * 12) (N * 12 * 3) (fun _ => 0) (fun _ => 0))
  = Done tt (two hh n1 n2 (N * 12) (N * 12 * 3) (fun m => jac3_at l (m / 12) (m mod 12)) (fun m => coordinate (pos3_at l (m / 3 / 12) (m / 3 mod 12)) (m mod 3))).
Proof.
  intros B Sh P1 P2 N12 H1 H2. set (F := fun m => jac3_at l (m / 12) (m mod 12)). set (G := fun m => coordinate (pos3_at l (m / 3 / 12) (m / 3 mod 12)) (m mod 3)).
  set (s := fun c => two hh n1 n2 (N * 12) (N * 12 * 3) (fun m => if (m <? c)%nat then F m else 0) (fun m => if (m <? c * 3)%nat then G m else 0)).
  assert (E0 : two hh n1 n2 (N * 12) (N * 12 * 3) (fun _ => 0) (fun _ => 0) = s 0%nat) by reflexivity.
  assert (E1 : two hh n1 n2 (N * 12) (N * 12 * 3) F G = s (N * 12)%nat).
  { apply two_ext; intros m Hm; rewrite (proj2 (Nat.ltb_lt _ _)) by lia; reflexivity. }
  rewrite E0, E1. unfold c_fill_jacobian_buffer_3d. change N_TRIANGLE_QUAD with 12%nat.
  apply (for_each_states (fun i => s (i * 12)%nat)). intros i Hi. replace (S i * 12)%nat with (i * 12 + 12)%nat by lia. replace (s (i * 12)%nat) with (s (i * 12 + 0)%nat) by (now rewrite Nat.add_0_r).
  assert (Bs : at_ h l (s (i * 12 + 0)%nat) p) by (now apply block_two). rewrite (bnd_done _ _ _ _ _ (ld_triangle_row h l _ p N i Bs Sh Hi)). cbv beta iota. clear Bs.
  apply (for_each_states (fun k => s (i * 12 + k)%nat)). intros k Hk. fold (jac3_at l i k). fold (pos3_at l i k).
  unfold s. assert (i * 12 + k < N * 12)%nat by nia.
  rewrite (bnd_done _ _ _ _ _ (st_two_left hh n1 n2 (N * 12) (N * 12 * 3) N12 H1 _ _ (i * 12 + k) _ ltac:(lia))).
  unfold st3. unfold bnd at 1. rewrite st_shift. rewrite (st_two_right hh n1 n2 (N * 12) (N * 12 * 3) H2) by lia. unfold bnd at 1. rewrite st_shift. rewrite (st_two_right hh n1 n2 (N * 12) (N * 12 * 3) H2) by lia.
  rewrite st_shift. rewrite (st_two_right hh n1 n2 (N * 12) (N * 12 * 3) H2) by lia.
  f_equal. apply two_ext; intros m Hm.
  - destruct (Nat.eqb_spec m (i * 12 + k)) as [->|Ne].
    + rewrite (proj2 (Nat.ltb_lt _ _)) by lia. unfold F. destruct (divmod i k 12 Hk) as [-> ->]. reflexivity.
    + destruct (Nat.ltb_spec m (i * 12 + k)), (Nat.ltb_spec m (i * 12 + S k)); try lia; reflexivity.
  - assert (HG : forall c, (c < 3)%nat -> G ((i * 12 + k) * 3 + c)%nat = coordinate (pos3_at l i k) c).
    { intros c Hc. unfold G. destruct (divmod (i * 12 + k) c 3 Hc) as [-> ->]. destruct (divmod i k 12 Hk) as [-> ->]. reflexivity. }
    destruct (Nat.eqb_spec m ((i * 12 + k) * 3 + 2)) as [->|Ne]; [|destruct (Nat.eqb_spec m ((i * 12 + k) * 3 + 1)) as [->|Ne1]; [|destruct (Nat.eqb_spec m ((i * 12 + k) * 3 + 0)) as [->|Ne2]]].
    + rewrite (proj2 (Nat.ltb_lt _ _)) by lia. now rewrite HG by lia.
    + rewrite (proj2 (Nat.ltb_lt _ _)) by lia. now rewrite HG by lia.
    + rewrite (proj2 (Nat.ltb_lt _ _)) by lia. now rewrite HG by lia.
    + destruct (Nat.ltb_spec m ((i * 12 + k) * 3)), (Nat.ltb_spec m ((i * 12 + S k) * 3)); try lia; reflexivity.
Qed.
Lemma ret_fill_3d l N : floats h l [N; 3%nat; 3%nat] -> returns_buffers (fill_jacobian_buffer_3d_py l) N 12 3 (fun i => triangle_source (vertex l i 0) (vertex l i 1) (vertex l i 2)).
Proof.
  intros (Al & Sl & Tl). enough (W : wp h (fill_jacobian_buffer_3d_py l) (fun jx h' => extends h h' /\ floats h' (fst jx) [N; 12%nat] /\ floats h' (snd jx) [N; 12%nat; 3%nat] /\
    forall i, (i < N)%nat -> map (fun k => (item h' (fst jx) [i; k], vertex_of h' (snd jx) i k)) (arange 12) = triangle_source (vertex l i 0) (vertex l i 1) (vertex l i 2))).
  { destruct W as ([j x] & h' & E & X & F1 & F2 & R). exists j, x, h'. repeat (split; [assumption|]). exact R. }
  pose proof (extends_refl h). unfold fill_jacobian_buffer_3d_py. change N_TRIANGLE_QUAD with 12%nat. repeat rstep h.
  match goal with |- wp ?hh (bnd (c_fill_jacobian_buffer_3d (mkptr ?a 0) (mkptr ?b 0) ?p N) _) _ =>
    assert (Ha : (a < length hh)%nat) by (apply nth_error_Some; congruence); assert (Hb : (b < length hh)%nat) by (apply nth_error_Some; congruence);
    assert (Nab : a <> b) by (lengths; lia); assert (Pa : p_buffer p <> a) by elsewhere; assert (Pb : p_buffer p <> b) by elsewhere;
    assert (V := val_fill_3d l hh p N a b ltac:(assumption) Sl Pa Pb Nab Ha Hb)
  end.
  rewrite two_zeros in V; [|match goal with E : nth_error ?hh ?n = _ |- nth_error ?hh ?n = _ => rewrite E end; do 3 f_equal; cbn; lia..].
  eapply wp_done; [exact V|]. clear V.
  apply wp_ret. cbn [fst snd].
  match goal with |- context [two ?hh (length ?h1) (length ?h2) _ _ ?g1 ?g2] => destruct (two_arrays h h1 h2 hh [N; 12%nat] [N; 12%nat; 3%nat] g1 g2) as (X & A1 & A2); try assumption end.
  replace (size [N; 12%nat]) with (N * 12)%nat in * by (cbn; lia). replace (size [N; 12%nat; 3%nat]) with (N * 12 * 3)%nat in * by (cbn; lia).
  split; [exact X|]. split; [eapply is_array_floats; exact A1|]. split; [eapply is_array_floats; exact A2|]. intros i Hi. rewrite triangle_source_at. apply map_ext_in. intros k Hk. apply in_arange in Hk.
  unfold vertex_of at 1. rewrite (item2 _ _ _ _ _ _ _ A1 Hi Hk), (item3 _ _ _ _ _ _ _ _ 0 A2 Hi Hk), (item3 _ _ _ _ _ _ _ _ 1 A2 Hi Hk), (item3 _ _ _ _ _ _ _ _ 2 A2 Hi Hk) by lia. cbv beta.
  destruct (divmod (i * 12 + k) 0 3 ltac:(lia)) as [-> ->]. destruct (divmod (i * 12 + k) 1 3 ltac:(lia)) as [-> ->]. destruct (divmod (i * 12 + k) 2 3 ltac:(lia)) as [-> ->]. destruct (divmod i k 12 Hk) as [-> ->].
  destruct (pos3_at l i k); reflexivity.
Qed.
End Buffers.
