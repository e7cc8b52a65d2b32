(** Calls that fill rows of the matrix. *)
From Coq Require Import Reals Lra QArith Qreals.
From Verif Require Import Base Vec GeomModel Tables QuadModel MemModel FieldModel TriangleModel SeriesModel Axial3DModel SolverModel MatrixModel MemFacts BackendModel BackendSafe BackendValues BackendCalls BackendReturns BackendTables BackendBuffers.
Local Open Scope R_scope.
Local Open Scope mem_scope.

(** ** Loops over the entries of rows *)
Section Rows.
Variables (hh : heap) (n N : nat).
Local Notation mat g := (put hh n (cells (N * N) g)).
Lemma mat_ext g g' : (forall i j, (i < N)%nat -> (j < N)%nat -> g (i * N + j)%nat = g' (i * N + j)%nat) -> mat g = mat g'.
Proof.
  intros H. f_equal. apply cells_ext. intros m Hm. assert (N <> 0)%nat by (intros ->; lia). rewrite (Nat.div_mod m N) by assumption. rewrite (Nat.mul_comm N). apply H; [now apply Nat.div_lt_upper_bound; lia|now apply Nat.mod_upper_bound].
Qed.
Lemma for_row i (u : nat -> R -> R) body g : (i < N)%nat ->
  (forall j g, (j < N)%nat -> body j (mat g) = Done tt (mat (fun m => if (m =? i * N + j)%nat then u j (g m) else g m))) ->
  for_each N body (mat g) = Done tt (mat (fun m => if (m / N =? i)%nat then u (m mod N) (g m) else g m)).
Proof.
  intros Hi H. set (s := fun c => mat (fun m => if ((m / N =? i) && (m mod N <? c))%nat then u (m mod N)%nat (g m) else g m)).
  replace (mat g) with (s 0%nat) by (unfold s; f_equal; apply cells_ext; intros m _; now rewrite andb_false_r).
  replace (mat (fun m => if (m / N =? i)%nat then u (m mod N)%nat (g m) else g m)) with (s N).
  2:{ apply mat_ext. intros a b Ha Hb. destruct (divmod a b N Hb) as [-> ->]. rewrite (proj2 (Nat.ltb_lt _ _)) by exact Hb. now rewrite andb_true_r. }
  apply for_each_states. intros j Hj. unfold s. rewrite H by exact Hj. f_equal. apply mat_ext. intros a b Ha Hb. destruct (divmod a b N Hb) as [-> ->].
  destruct (Nat.eqb_spec (a * N + b) (i * N + j)) as [E|E].
  - assert (a = i) by nia. assert (b = j) by nia. subst. rewrite Nat.eqb_refl, Nat.ltb_irrefl. rewrite (proj2 (Nat.ltb_lt _ _)) by lia. reflexivity.
  - destruct (Nat.eqb_spec a i) as [->|]; [|reflexivity]. assert (b <> j) by congruence. cbn [andb]. destruct (Nat.ltb_spec b j), (Nat.ltb_spec b (S j)); try lia; reflexivity.
Qed.
Lemma for_rows start cnt (u : nat -> nat -> R -> R) body g : (start + cnt <= N)%nat ->
  (forall c g, (c < cnt)%nat -> body c (mat g) = Done tt (mat (fun m => if (m / N =? start + c)%nat then u (start + c)%nat (m mod N) (g m) else g m))) ->
  for_each cnt body (mat g) = Done tt (mat (fun m => if ((start <=? m / N) && (m / N <? start + cnt))%nat then u (m / N)%nat (m mod N)%nat (g m) else g m)).
Proof.
  intros B H. set (s := fun c => mat (fun m => if ((start <=? m / N) && (m / N <? start + c))%nat then u (m / N)%nat (m mod N)%nat (g m) else g m)).
  replace (mat g) with (s 0%nat).
  2:{ unfold s. f_equal. apply cells_ext. intros m _. destruct (Nat.leb_spec start (m / N)); cbn [andb]; [|reflexivity]. rewrite (proj2 (Nat.ltb_ge _ _)) by lia. reflexivity. }
  apply (for_each_states s). intros c Hc. unfold s. rewrite H by exact Hc. f_equal. apply mat_ext. intros a b Ha Hb. destruct (divmod a b N Hb) as [-> ->].
  destruct (Nat.eqb_spec a (start + c)) as [->|E].
  - rewrite (proj2 (Nat.leb_le _ _)) by lia. rewrite Nat.ltb_irrefl. rewrite (proj2 (Nat.ltb_lt _ _)) by lia. reflexivity.
  - destruct (Nat.leb_spec start a); cbn [andb]; [|reflexivity]. destruct (Nat.ltb_spec a (start + c)), (Nat.ltb_spec a (start + S c)); try lia; reflexivity.
Qed.
(** an entry to which the terms of a sum are added one by one *)
Lemma entry_sum Q i (t : nat -> R) body g : (i < N * N)%nat ->
  (forall k g, (k < Q)%nat -> body k (mat g) = Done tt (mat (fun m => g m + if (m =? i)%nat then t k else 0))) ->
  for_each Q body (mat g) = Done tt (mat (fun m => if (m =? i)%nat then g m + Rsum (map t (arange Q)) else g m)).
Proof.
  intros Hi H. rewrite (for_each_acc hh n (N * N) body (fun k m => if (m =? i)%nat then t k else 0)) by exact H. f_equal. f_equal. apply cells_ext. intros m _.
  destruct (m =? i)%nat; [reflexivity|]. rewrite Rsum_const0. lra.
Qed.
End Rows.

Section Matrix.
Variable h : heap.
Local Notation vertex := (vertex_of h).
(** the excitation types of a row *)
Definition potential_row (t : ndarray) (i : nat) : Prop := In (item h t [i]) [1; 2; 5].
Definition flux_row (t : ndarray) (i : nat) : Prop := In (item h t [i]) [3; 6].
Lemma type_is_in x l : type_is x l = true <-> In x l.
Proof.
  unfold type_is. rewrite existsb_exists. split.
  - intros (y & I & E). destruct (Req_EM_T x y) as [->|]; [exact I|discriminate].
  - intros I. exists x. split; [exact I|]. destruct (Req_EM_T x x); congruence.
Qed.
Lemma not_both t i : flux_row t i -> type_is (item h t [i]) POTENTIAL_TYPES = false.
Proof.
  intros F. destruct (type_is _ _) eqn:E; [|reflexivity]. apply type_is_in in E. unfold flux_row, POTENTIAL_TYPES in *. cbn [In] in *. exfalso. destruct E as [E|[E|[E|[]]]]; destruct F as [G|[G|[]]]; lra.
Qed.
Lemma load_type t hh p N i : block hh p UInt8 (contents h t) -> nd_shape t = [N] -> (i < N)%nat -> load UInt8 p (Z.of_nat i) hh = Done (item h t [i]) hh.
Proof. intros B S Hi. rewrite (B i) by (rewrite contents_length, S; cbn; lia). f_equal. now apply nth_contents1 with (n := N). Qed.
Section Radial.
Variables (L T V J X : ndarray) (N : nat).
Hypothesis SL : nd_shape L = [N; 4%nat; 3%nat].  Hypothesis ST : nd_shape T = [N].  Hypothesis SV : nd_shape V = [N].
Hypothesis SJ : nd_shape J = [N; 16%nat].  Hypothesis SX : nd_shape X = [N; 16%nat; 2%nat].
(** the sources in the buffers *)
Definition buffered (i : nat) : source := map (fun k => (item h J [i; k], V3 (item h X [i; k; 0%nat]) 0 (item h X [i; k; 1%nat]))) (arange 16).
Definition radial_kernel (i : nat) (q : vec3) : R :=
  let target := line_center (vertex L i 0) (vertex L i 1) (vertex L i 2) (vertex L i 3) in
  if type_is (item h T [i]) POTENTIAL_TYPES then potential_radial_ring (fst target) (snd target) (vx q) (vz q)
  else field_dot_normal_radial (line_normal (vertex L i 0) (vertex L i 1) (vertex L i 2) (vertex L i 3)) (item h V [i]) (fst target) (snd target) (vx q) (vz q).
Definition radial_term (i j : nat) : R := source_sum (radial_kernel i) (buffered j).
Lemma source_sum_buffered f j : source_sum f (buffered j) = Rsum (map (fun k => item h J [j; k] * f (V3 (item h X [j; k; 0%nat]) 0 (item h X [j; k; 1%nat]))) (arange 16)).
Proof. unfold source_sum, buffered. rewrite map_map. reflexivity. Qed.
Lemma val_fill_matrix_radial hh n l t v j x start end_ g : at_ h L hh l -> block hh t UInt8 (contents h T) -> at_ h V hh v -> at_ h J hh j -> at_ h X hh x ->
  p_buffer l <> n -> p_buffer t <> n -> p_buffer v <> n -> p_buffer j <> n -> p_buffer x <> n -> (n < length hh)%nat -> (start <= end_ < N)%nat ->
  (forall i, (start <= i <= end_)%nat -> potential_row T i \/ flux_row T i) ->
  c_fill_matrix_radial (mkptr n 0) l t v j x N N start end_ (put hh n (cells (N * N) g))
  = Done tt (put hh n (cells (N * N) (fun m => if ((start <=? m / N) && (m / N <? S end_))%nat then g m + radial_term (m / N) (m mod N) else g m))).
Proof.
  intros BL BT BV BJ BX Nl Nt Nv Nj Nx Hn Hse Ty. unfold c_fill_matrix_radial. change N_QUAD_2D with 16%nat.
  rewrite (for_rows hh n N start (S end_ - start) (fun i j y => y + radial_term i j));
    [f_equal; f_equal; apply cells_ext; intros; replace (start + (S end_ - start))%nat with (S end_) by lia; reflexivity|lia|]. clear g. intros c g Hc. cbv zeta. assert (Hi : (start + c < N)%nat) by lia.
  specialize (Ty (start + c)%nat ltac:(lia)). revert Hi Ty. generalize (start + c)%nat. clear Hc Hse c. intros i Hi Ty.
  set (hp := put hh n (cells (N * N) g)).
  rewrite (bnd_done _ _ _ _ _ (line_jacobian_row h 0 L hp l N i ltac:(now apply block_put) SL Hi)).
  rewrite (bnd_done _ _ _ _ _ (load_type T hp t N i ltac:(now apply block_put) ST Hi)). unfold hp. clear hp. cbn [fst].
  assert (RX : forall g j' k c, (j' < N)%nat -> (k < 16)%nat -> (c < 2)%nat -> ld x ((j' * 16 + k) * 2 + c) (put hh n (cells (N * N) g)) = Done (item h X [j'; k; c]) (put hh n (cells (N * N) g))).
  { intros. apply (ld_at3 h X _ x N 16 2 j' k c); auto. now apply block_put. }
  assert (RJ : forall g j' k, (j' < N)%nat -> (k < 16)%nat -> ld j (j' * 16 + k) (put hh n (cells (N * N) g)) = Done (item h J [j'; k]) (put hh n (cells (N * N) g))).
  { intros. apply (ld2 h J _ j N 16 j' k); auto. now apply block_put. }
  destruct (type_is (item h T [i]) POTENTIAL_TYPES) eqn:TP.
  - apply (for_row hh n N i (fun j0 y => y + radial_term i j0) _ g Hi). clear g. intros j0 g Hj. unfold radial_term. rewrite source_sum_buffered.
    apply (entry_sum hh n N 16 (i * N + j0)); [nia|]. clear g. intros k g Hk.
    rewrite (bnd_done _ _ _ _ _ (RJ g j0 k Hj Hk)). replace ((j0 * 16 + k) * 2)%nat with ((j0 * 16 + k) * 2 + 0)%nat at 1 by lia. rewrite (bnd_done _ _ _ _ _ (RX g j0 k 0%nat Hj Hk ltac:(lia))).
    rewrite (bnd_done _ _ _ _ _ (RX g j0 k 1%nat Hj Hk ltac:(lia))). rewrite st_add_cells by (auto; nia). unfold radial_kernel. rewrite TP. reflexivity.
  - destruct Ty as [Ty|Ty]; [apply type_is_in in Ty; unfold POTENTIAL_TYPES in TP; congruence|]. rewrite (proj2 (type_is_in _ FLUX_TYPES) Ty).
    apply (for_row hh n N i (fun j0 y => y + radial_term i j0) _ g Hi). clear g. intros j0 g Hj. unfold radial_term. rewrite source_sum_buffered.
    set (hp := put hh n (cells (N * N) g)). rewrite (bnd_done _ _ _ _ _ (line_normal_row h 0 L hp l N i ltac:(now apply block_put) SL Hi)).
    rewrite (bnd_done _ _ _ _ _ (ld1 h V hp v N i ltac:(now apply block_put) SV Hi)). unfold hp. clear hp.
    apply (entry_sum hh n N 16 (i * N + j0)); [nia|]. clear g. intros k g Hk.
    rewrite (bnd_done _ _ _ _ _ (RJ g j0 k Hj Hk)). replace ((j0 * 16 + k) * 2)%nat with ((j0 * 16 + k) * 2 + 0)%nat at 1 by lia. rewrite (bnd_done _ _ _ _ _ (RX g j0 k 0%nat Hj Hk ltac:(lia))).
    rewrite (bnd_done _ _ _ _ _ (RX g j0 k 1%nat Hj Hk ltac:(lia))). rewrite st_add_cells by (auto; nia). unfold radial_kernel. rewrite TP. reflexivity.
Qed.
End Radial.

Section Three.
Variable integrate : (R -> R) -> R -> R -> R.
Variables (L T V J X : ndarray) (N : nat).
Hypothesis SL : nd_shape L = [N; 3%nat; 3%nat].  Hypothesis ST : nd_shape T = [N].  Hypothesis SV : nd_shape V = [N].
Hypothesis SJ : nd_shape J = [N; 12%nat].  Hypothesis SX : nd_shape X = [N; 12%nat; 3%nat].
Definition buffered3 (i : nat) : source := map (fun k => (item h J [i; k], vertex X i k)) (arange 12).
(** the new value of an entry whose value was [y] *)
Definition entry3 (i j : nat) (y : R) : R :=
  let target := triangle_center (vertex L i 0) (vertex L i 1) (vertex L i 2) in
  let s0 := vertex L j 0 in let s1 := vertex L j 1 in let s2 := vertex L j 2 in
  if type_is (item h T [i]) POTENTIAL_TYPES then
    if negb (i =? j)%nat && far target s0 s1 then y + source_sum (potential_3d_point target) (buffered3 j)
    else potential_triangle integrate s0 s1 s2 target / (4 * PI)
  else
    let normal := normal_3d (vertex L i 0) (vertex L i 1) (vertex L i 2) in let factor := flux_density_to_charge_factor (item h V [i]) in
    if (i =? j)%nat then -1
    else if far target s0 s1 then y + source_sum (fun q => factor * field_dot_normal_3d normal target q) (buffered3 j)
    else factor * flux_triangle integrate s0 s1 s2 target normal / (4 * PI).
Lemma source_sum_buffered3 f j : source_sum f (buffered3 j) = Rsum (map (fun k => item h J [j; k] * f (vertex X j k)) (arange 12)).
Proof. unfold source_sum, buffered3. rewrite map_map. reflexivity. Qed.
Lemma val_fill_matrix_3d hh n l t v j x start end_ g : at_ h L hh l -> block hh t UInt8 (contents h T) -> at_ h V hh v -> at_ h J hh j -> at_ h X hh x ->
  p_buffer l <> n -> p_buffer t <> n -> p_buffer v <> n -> p_buffer j <> n -> p_buffer x <> n -> (n < length hh)%nat -> (start <= end_ < N)%nat ->
  (forall i, (start <= i <= end_)%nat -> potential_row T i \/ flux_row T i) ->
  c_fill_matrix_3d integrate (mkptr n 0) l t v j x N N start end_ (put hh n (cells (N * N) g))
  = Done tt (put hh n (cells (N * N) (fun m => if ((start <=? m / N) && (m / N <? S end_))%nat then entry3 (m / N) (m mod N) (g m) else g m))).
Proof.
  intros BL BT BV BJ BX Nl Nt Nv Nj Nx Hn Hse Ty. unfold c_fill_matrix_3d. change N_TRIANGLE_QUAD with 12%nat.
  rewrite (for_rows hh n N start (S end_ - start) entry3);
    [f_equal; f_equal; apply cells_ext; intros; replace (start + (S end_ - start))%nat with (S end_) by lia; reflexivity|lia|]. clear g. intros c g Hc. cbv zeta. assert (Hi : (start + c < N)%nat) by lia.
  specialize (Ty (start + c)%nat ltac:(lia)). revert Hi Ty. generalize (start + c)%nat. clear Hc Hse c. intros i Hi Ty.
  assert (RT : forall g j', (j' < N)%nat -> ld_triangle (shift l (9 * j')) (put hh n (cells (N * N) g)) = Done (vertex L j' 0, vertex L j' 1, vertex L j' 2) (put hh n (cells (N * N) g))).
  { intros. apply (ld_triangle_row h L _ l N); auto. now apply block_put. }
  assert (RX : forall g j' k, (j' < N)%nat -> (k < 12)%nat -> ld3 (shift x ((j' * 12 + k) * 3)) (put hh n (cells (N * N) g)) = Done (vertex X j' k) (put hh n (cells (N * N) g))).
  { intros. apply (ld3_row h X _ x N 12 j' k); auto. now apply block_put. }
  assert (RJ : forall g j' k, (j' < N)%nat -> (k < 12)%nat -> ld j (j' * 12 + k) (put hh n (cells (N * N) g)) = Done (item h J [j'; k]) (put hh n (cells (N * N) g))).
  { intros. apply (ld2 h J _ j N 12 j' k); auto. now apply block_put. }
  rewrite (bnd_done _ _ _ _ _ (RT g i Hi)). cbv beta iota.
  rewrite (bnd_done _ _ _ _ _ (load_type T (put hh n (cells (N * N) g)) t N i ltac:(now apply block_put) ST Hi)). fold (triangle_center (vertex L i 0) (vertex L i 1) (vertex L i 2)).
  destruct (type_is (item h T [i]) POTENTIAL_TYPES) eqn:TP.
  - apply (for_row hh n N i (entry3 i) _ g Hi). clear g. intros j0 g Hj. rewrite (bnd_done _ _ _ _ _ (RT g j0 Hj)). cbv beta iota. unfold entry3. rewrite TP. cbv zeta.
    assert (B : (i * N + j0 < N * N)%nat) by nia. destruct (Nat.eqb_spec i j0) as [E|E]; cbn [negb andb].
    + rewrite (bnd_done _ _ _ _ _ (st_cells hh n (N * N) g (i * N + j0) _ Hn B)). rewrite st_cells by assumption. f_equal. f_equal. apply cells_ext. intros m _. destruct (m =? i * N + j0)%nat; reflexivity.
    + unfold bnd at 1, ret at 1. destruct (far _ _ _) eqn:Fa.
      * rewrite source_sum_buffered3. apply (entry_sum hh n N 12 (i * N + j0)); [exact B|]. clear g. intros k g Hk. rewrite (bnd_done _ _ _ _ _ (RX g j0 k Hj Hk)), (bnd_done _ _ _ _ _ (RJ g j0 k Hj Hk)). now rewrite st_add_cells by assumption.
      * rewrite st_cells by assumption. reflexivity.
  - destruct Ty as [Ty|Ty]; [apply type_is_in in Ty; unfold POTENTIAL_TYPES in TP; congruence|]. rewrite (proj2 (type_is_in _ FLUX_TYPES) Ty).
    rewrite (bnd_done _ _ _ _ _ (ld1 h V _ v N i ltac:(apply block_put; [exact Nv|exact BV]) SV Hi)).
    apply (for_row hh n N i (entry3 i) _ g Hi). clear g. intros j0 g Hj. rewrite (bnd_done _ _ _ _ _ (RT g j0 Hj)). cbv beta iota. unfold entry3. rewrite TP. cbv zeta.
    assert (B : (i * N + j0 < N * N)%nat) by nia. destruct (Nat.eqb_spec i j0) as [E|E].
    + rewrite st_cells by assumption. reflexivity.
    + destruct (far _ _ _) eqn:Fa.
      * rewrite source_sum_buffered3. apply (entry_sum hh n N 12 (i * N + j0)); [exact B|]. clear g. intros k g Hk. rewrite (bnd_done _ _ _ _ _ (RX g j0 k Hj Hk)), (bnd_done _ _ _ _ _ (RJ g j0 k Hj Hk)).
        rewrite st_add_cells by assumption. f_equal. f_equal. apply cells_ext. intros m _. destruct (m =? i * N + j0)%nat; ring.
      * rewrite st_cells by assumption. reflexivity.
Qed.
End Three.

(** ** The calls *)
Lemma wp_pass_where {A} hh sp a t (k : ptr -> M A) Q : array_ok h a -> extends h hh -> accepts sp a = true -> nd_dtype a = t ->
  (forall p h', extends hh h' -> block h' p t (contents h a) -> (p_buffer p = p_buffer (nd_base a) \/ (length hh <= p_buffer p)%nat) -> wp h' (k p) Q) -> wp hh (bnd (pass sp a) k) Q.
Proof.
  intros Ha E Ac <- H. pose proof (extends_array _ _ _ E Ha) as Ha'. unfold pass. destruct (is_contiguous a) eqn:C.
  - apply (wp_done _ _ _ _ (nd_base a) hh); [unfold bnd, ensure_contiguous_aligned; rewrite C, Ac; reflexivity|].
    apply H; [apply extends_refl| |left; reflexivity]. rewrite <- (extends_contents _ _ _ E Ha). now apply contiguous_block.
  - apply (wp_done _ _ _ _ (mkptr (length hh) 0) (hh ++ [mkbuffer (nd_dtype a) (contents hh a)])).
    + unfold bnd, ensure_contiguous_aligned. rewrite C, new_array_eq. replace (accepts sp (MemFacts.fresh hh (nd_shape a) (nd_dtype a))) with (accepts sp a) by (destruct sp; reflexivity). rewrite Ac. reflexivity.
    + apply H; [apply extends_new| |right; cbn; lia]. rewrite <- (extends_contents _ _ _ E Ha). pose proof (contents_length hh a) as Le.
      pose proof (contiguous_block _ _ (fresh_ok hh (nd_shape a) (nd_dtype a) _ Le) (fresh_contiguous _ _ _)) as B. now rewrite (fresh_contents _ _ _ _ Le) in B.
Qed.
(** a matrix as np.zeros((N, N)) makes it, with its memory to itself *)
Definition whole (n N : nat) : ndarray := mkarray (mkptr n 0) [N; N] (c_strides [N; N]) Float64.
(** What a call does to the matrix. *)
Definition fills (m : M unit) (n N : nat) (value : nat -> nat -> R -> R) : Prop :=
  exists h', m h = Done tt h' /\ (length h <= length h')%nat /\ (forall b, b <> n -> (b < length h)%nat -> nth_error h' b = nth_error h b) /\ floats h' (whole n N) [N; N] /\
    forall i j, (i < N)%nat -> (j < N)%nat -> item h' (whole n N) [i; j] = value i j (item h (whole n N) [i; j]).
Definition owns (n N : nat) : Prop := exists cells, nth_error h n = Some (mkbuffer Float64 cells) /\ length cells = (N * N)%nat.
Lemma pass_whole n N hh : pass (arr 2) (whole n N) hh = Done (mkptr n 0) hh.
Proof.
  unfold pass, bnd, ensure_contiguous_aligned. assert (is_contiguous (whole n N) = true) as -> by (unfold is_contiguous; cbn [whole nd_shape nd_strides]; now rewrite c_strides_contiguous, orb_true_r). reflexivity.
Qed.
Lemma whole_ok n N : owns n N -> floats h (whole n N) [N; N].
Proof.
  intros (c & B & Le). split; [|split; reflexivity]. split; [reflexivity|]. exists (mkbuffer Float64 c). cbn [whole nd_base p_buffer nd_dtype]. split; [exact B|]. split; [reflexivity|].
  intros idx I. apply In_nth with (d := []) in I. destruct I as (m & Hm & <-). rewrite indices_length in Hm. unfold address. cbn [whole nd_base p_offset nd_strides b_cells nd_shape] in *.
  rewrite dot_contiguous by (auto; apply c_strides_contiguous). replace (size [N; N]) with (N * N)%nat in Hm by (cbn; lia). lia.
Qed.
(** the memory after the call *)
Lemma filled n N (m : M unit) (value : nat -> nat -> R -> R) hh c : extends h hh -> nth_error h n = Some (mkbuffer Float64 c) -> length c = (N * N)%nat ->
  m (put hh n (cells (N * N) (fun k => nth k c 0))) = Done tt (put hh n (cells (N * N) (fun k => value (k / N)%nat (k mod N)%nat (nth k c 0)))) ->
  wp hh m (fun _ h' => (length h <= length h')%nat /\ (forall b, b <> n -> (b < length h)%nat -> nth_error h' b = nth_error h b) /\ floats h' (whole n N) [N; N] /\
    forall i j, (i < N)%nat -> (j < N)%nat -> item h' (whole n N) [i; j] = value i j (item h (whole n N) [i; j])).
Proof.
  intros X B Le E. assert (n < length h)%nat by (apply nth_error_Some; congruence). pose proof (extends_length _ _ X).
  assert (Ec : cells (N * N) (fun k => nth k c 0) = c).
  { apply nth_ext with (d := 0) (d' := 0); [now rewrite cells_length|]. intros k Hk. rewrite cells_length in Hk. now rewrite nth_cells. }
  rewrite Ec, put_same in E by (now apply (extends_nth h hh)). eexists tt, _. split; [exact E|]. set (g := fun k => value (k / N)%nat (k mod N)%nat (nth k c 0)).
  assert (A : is_array (put hh n (cells (N * N) g)) (whole n N) [N; N] (cells (N * N) g)).
  { assert (F : whole n N = MemFacts.fresh (firstn n h) [N; N] Float64) by (unfold whole, MemFacts.fresh; now rewrite firstn_length, Nat.min_l by lia). rewrite F. apply put_array; [now rewrite firstn_length, Nat.min_l by lia|lia|rewrite cells_length; cbn; lia]. }
  split; [rewrite put_length; lia|]. split; [|split].
  - intros b Nb Hb. unfold put. rewrite nth_upd_other by congruence. destruct X as (e & ->). now rewrite nth_error_app1.
  - eapply is_array_floats, A.
  - intros i j Hi Hj. rewrite (item2 _ _ _ _ _ _ _ A Hi Hj). unfold g. destruct (divmod i j N Hj) as [-> ->]. f_equal.
    rewrite <- (nth_contents2 h (whole n N) N N i j eq_refl Hi Hj). rewrite nth_contents by (cbn; nia). unfold item. cbn [whole nd_base p_buffer]. rewrite B. cbn [b_cells].
    unfold address. cbn [whole nd_base p_offset nd_strides nd_shape]. rewrite dot_contiguous; [|apply c_strides_contiguous|cbn; nia]. f_equal. lia.
Qed.
Ltac mstep :=
  match goal with X : extends h ?h1 |- wp ?h1 (bnd (pass ?sp ?a) _) _ =>
    let E := fresh "E" in let h' := fresh "h" in let p := fresh "p" in let W := fresh "W" in
    eapply wp_pass_where; [eassumption|exact X|accepted|eassumption|]; intros p h' E ? W; climb E; pose proof (extends_trans _ _ _ X E) end.
Ltac off := lengths; match goal with W : p_buffer ?p = _ \/ _ |- p_buffer ?p <> _ => destruct W; [congruence|lia] end.

(** bytes: an array of uint8 of the given shape *)
Definition bytes (a : ndarray) (s : list nat) : Prop := array_ok h a /\ nd_shape a = s /\ nd_dtype a = UInt8.
Definition outside (n : nat) (a : ndarray) : Prop := p_buffer (nd_base a) <> n.
Lemma ret_fill_matrix_radial n L T V J X N start end_ : owns n N -> floats h L [N; 4%nat; 3%nat] -> in_plane h L -> bytes T [N] -> floats h V [N] -> floats h J [N; 16%nat] -> floats h X [N; 16%nat; 2%nat] ->
  outside n L -> outside n T -> outside n V -> outside n J -> outside n X -> (start < end_ < N)%nat -> (forall i, (start <= i <= end_)%nat -> potential_row T i \/ flux_row T i) ->
  fills (fill_matrix_radial_py (whole n N) L T V J X start end_) n N (fun i j y => if ((start <=? i) && (i <? S end_))%nat then y + radial_term L T V J X i j else y).
Proof.
  intros (c & B & Le) (AL & SL & TL) PL (AT & ST & TT) (AV & SV & TV) (AJ & SJ & TJ) (AX & SX & TX) OL OT OV OJ OX Hse Ty.
  assert (n < length h)%nat by (apply nth_error_Some; congruence). pose proof (extends_refl h) as X0. unfold outside in *. pose proof (fun (P : Prop) (f : _ -> P) => f B) as K.
  match goal with |- fills ?m _ _ ?v => enough (W : wp h m (fun _ h' => (length h <= length h')%nat /\ (forall b, b <> n -> (b < length h)%nat -> nth_error h' b = nth_error h b) /\ floats h' (whole n N) [N; N] /\
    forall i j, (i < N)%nat -> (j < N)%nat -> item h' (whole n N) [i; j] = v i j (item h (whole n N) [i; j]))) by (destruct W as ([] & h' & E & W); exists h'; split; [exact E|exact W]) end.
  unfold fill_matrix_radial_py. change N_QUAD_2D with 16%nat. eapply wp_len; [exact SL|]. eapply wp_middle; [exact AL|exact X0|exact SL|lia|exact PL|]. apply wp_assert; [reflexivity|].
  eapply (wp_done _ _ _ _ tt h); [unfold square; cbn [whole nd_shape]; now rewrite Nat.eqb_refl|]. repeat (apply wp_assert; [by_shape|]).
  apply wp_assert; [rewrite (proj2 (Nat.ltb_lt start N)), (proj2 (Nat.ltb_lt end_ N)), (proj2 (Nat.ltb_lt start end_)) by lia; reflexivity|].
  eapply wp_done; [apply pass_whole|]. do 5 mstep.
  eapply (filled n N _ (fun i j y => if ((start <=? i) && (i <? S end_))%nat then y + radial_term L T V J X i j else y)); [eassumption|exact (K _ (fun b => b))|exact Le|]. apply (val_fill_matrix_radial L T V J X N); try assumption; try off; try lia. lengths; lia.
Qed.
Lemma ret_fill_matrix_3d integrate n L T V J X N start end_ : owns n N -> floats h L [N; 3%nat; 3%nat] -> bytes T [N] -> floats h V [N] -> floats h J [N; 12%nat] -> floats h X [N; 12%nat; 3%nat] ->
  outside n L -> outside n T -> outside n V -> outside n J -> outside n X -> (start <= end_ < N)%nat -> (forall i, (start <= i <= end_)%nat -> potential_row T i \/ flux_row T i) ->
  fills (fill_matrix_3d_py integrate (whole n N) L T V J X start end_) n N (fun i j y => if ((start <=? i) && (i <? S end_))%nat then entry3 integrate L T V J X i j y else y).
Proof.
  intros (c & B & Le) (AL & SL & TL) (AT & ST & TT) (AV & SV & TV) (AJ & SJ & TJ) (AX & SX & TX) OL OT OV OJ OX Hse Ty.
  assert (n < length h)%nat by (apply nth_error_Some; congruence). pose proof (extends_refl h) as X0. unfold outside in *. pose proof (fun (P : Prop) (f : _ -> P) => f B) as K.
  match goal with |- fills ?m _ _ ?v => enough (W : wp h m (fun _ h' => (length h <= length h')%nat /\ (forall b, b <> n -> (b < length h)%nat -> nth_error h' b = nth_error h b) /\ floats h' (whole n N) [N; N] /\
    forall i j, (i < N)%nat -> (j < N)%nat -> item h' (whole n N) [i; j] = v i j (item h (whole n N) [i; j]))) by (destruct W as ([] & h' & E & W); exists h'; split; [exact E|exact W]) end.
  unfold fill_matrix_3d_py. change N_TRIANGLE_QUAD with 12%nat. eapply wp_len; [exact SL|].
  eapply (wp_done _ _ _ _ tt h); [unfold square; cbn [whole nd_shape]; now rewrite Nat.eqb_refl|]. repeat (apply wp_assert; [by_shape|]).
  apply wp_assert; [rewrite (proj2 (Nat.ltb_lt start N)), (proj2 (Nat.ltb_lt end_ N)), (proj2 (Nat.leb_le start end_)) by lia; reflexivity|].
  eapply wp_done; [apply pass_whole|]. do 5 mstep.
  eapply (filled n N _ (fun i j y => if ((start <=? i) && (i <? S end_))%nat then entry3 integrate L T V J X i j y else y)); [eassumption|exact (K _ (fun b => b))|exact Le|]. apply (val_fill_matrix_3d integrate L T V J X N); try assumption; try off; try lia. lengths; lia.
Qed.
End Matrix.
