(** Calls that fill an array in a loop. *)
From Coq Require Import Reals Lra.
From Verif Require Import Base Vec GeomModel MemModel FieldModel SeriesModel Axial3DModel MatrixModel MemFacts BackendModel BackendSafe BackendValues BackendCalls BackendReturns.
Local Open Scope R_scope.
Local Open Scope mem_scope.

Definition cells (len : nat) (g : nat -> R) : list R := map g (arange len).
Lemma cells_length len g : length (cells len g) = len. Proof. unfold cells, arange. now rewrite map_length, seq_length. Qed.
Lemma cells_ext len g g' : (forall m, (m < len)%nat -> g m = g' m) -> cells len g = cells len g'.
Proof. intros H. apply map_ext_in. intros m Hm. apply H. now apply in_arange. Qed.
Lemma nth_cells len g m : (m < len)%nat -> nth m (cells len g) 0 = g m.
Proof. intros H. unfold cells. rewrite (nth_indep _ 0 (g 0%nat)) by (rewrite map_length; unfold arange; rewrite seq_length; exact H). rewrite map_nth. unfold arange. now rewrite seq_nth. Qed.
Lemma nth_upd_list {A} (l : list A) i x m d : (i < length l)%nat -> nth m (upd l i x) d = if (m =? i)%nat then x else nth m l d.
Proof. revert i m. induction l as [|y l IH]; intros [|i] [|m] H; cbn in *; try lia; try reflexivity. apply IH. lia. Qed.
Lemma upd_cells len g i v : (i < len)%nat -> upd (cells len g) i v = cells len (fun m => if (m =? i)%nat then v else g m).
Proof.
  intros H. apply nth_ext with (d := 0) (d' := 0); [now rewrite upd_length, !cells_length|]. intros m Hm. rewrite upd_length, cells_length in Hm.
  rewrite nth_upd_list by (now rewrite cells_length). rewrite !nth_cells by exact Hm. reflexivity.
Qed.
Lemma zeros_cells n : repeat 0 n = cells n (fun _ => 0).
Proof. unfold cells, arange. generalize 0%nat at 1. induction n as [|n IH]; intros k; [reflexivity|]. cbn. f_equal. apply IH. Qed.
Lemma st_cells h n len g i v : (n < length h)%nat -> (i < len)%nat -> st (mkptr n 0) i v (put h n (cells len g)) = Done tt (put h n (cells len (fun m => if (m =? i)%nat then v else g m))).
Proof. intros Hn Hi. rewrite st_put by (rewrite ?cells_length; assumption). now rewrite upd_cells. Qed.
Lemma st_add_cells h n len g i v : (n < length h)%nat -> (i < len)%nat -> st_add (mkptr n 0) i v (put h n (cells len g)) = Done tt (put h n (cells len (fun m => g m + if (m =? i)%nat then v else 0))).
Proof.
  intros Hn Hi. unfold st_add. rewrite (bnd_done _ _ _ _ _ (ld_put h n _ i Hn ltac:(rewrite cells_length; exact Hi))). rewrite nth_cells by exact Hi. rewrite st_cells by assumption.
  f_equal. f_equal. apply cells_ext. intros m _. destruct (Nat.eqb_spec m i) as [->|]; lra.
Qed.
Lemma loop_from_put h n body N : forall i (G : nat -> list R), (forall k, (i <= k < i + N)%nat -> body k (put h n (G k)) = Done tt (put h n (G (S k)))) ->
  loop_from i N (fun k (_ : unit) => body k) tt (put h n (G i)) = Done tt (put h n (G (i + N)%nat)).
Proof.
  induction N as [|N IH]; intros i G H; cbn [loop_from]; [now rewrite Nat.add_0_r|]. rewrite (bnd_done _ _ _ _ _ (H i ltac:(lia))). replace (i + S N)%nat with (S i + N)%nat by lia. apply IH. intros k Hk. apply H. lia.
Qed.
Lemma for_each_put h n body N (G : nat -> list R) : (forall k, (k < N)%nat -> body k (put h n (G k)) = Done tt (put h n (G (S k)))) -> for_each N body (put h n (G 0%nat)) = Done tt (put h n (G N)).
Proof. intros H. apply (loop_from_put h n body N 0 G). intros k Hk. apply H. lia. Qed.
(** a loop that adds to the cells *)
Lemma for_each_acc h n len body (t : nat -> nat -> R) N g :
  (forall i g, (i < N)%nat -> body i (put h n (cells len g)) = Done tt (put h n (cells len (fun m => g m + t i m)))) ->
  for_each N body (put h n (cells len g)) = Done tt (put h n (cells len (fun m => g m + Rsum (map (fun i => t i m) (arange N))))).
Proof.
  intros H. assert (E : cells len g = cells len (fun m => g m + Rsum (map (fun i => t i m) (arange 0)))) by (apply cells_ext; intros; cbn; lra). rewrite E at 1.
  apply (for_each_put h n body N (fun k => cells len (fun m => g m + Rsum (map (fun i => t i m) (arange k))))). intros k Hk. rewrite H by exact Hk. f_equal. f_equal. apply cells_ext. intros m _.
  unfold arange. rewrite seq_S, map_app, Nat.add_0_l. cbn [map]. generalize (map (fun i => t i m) (seq 0 k)). intros l.
  assert (forall l y, Rsum (l ++ [y]) = Rsum l + y) as -> by (clear; induction l as [|x l IH]; intros; cbn; [lra|rewrite IH; lra]). lra.
Qed.
Lemma Rsum_const0 {A} (l : list A) : Rsum (map (fun _ => 0) l) = 0.
Proof. induction l as [|x l IH]; cbn; [reflexivity|]. rewrite IH. lra. Qed.
(** only one term of a sum *)
Lemma Rsum_pick (f : nat -> R) N i : (i < N)%nat -> (forall k, (k < N)%nat -> k <> i -> f k = 0) -> Rsum (map f (arange N)) = f i.
Proof.
  intros Hi H. unfold arange. replace N with (i + S (N - i - 1))%nat by lia. rewrite seq_app, map_app. cbn [Nat.add seq map].
  assert (A : forall l y, Rsum (l ++ y) = Rsum l + Rsum y) by (clear; induction l as [|x l IH]; intros; cbn; [lra|rewrite IH; lra]). rewrite A. cbn [Rsum].
  rewrite (Rsum_map_ext f (fun _ => 0) (seq 0 i)), (Rsum_map_ext f (fun _ => 0) (seq (S i) _)), !Rsum_const0 by (intros k Hk; apply in_seq in Hk; apply H; lia). lra.
Qed.
(** an array of the given shape, item by item *)
Definition tabulated (s : list nat) (f : list nat -> R) : list R := map f (indices s).
Lemma tabulated_cells s f : tabulated s f = cells (size s) (fun n => f (nth n (indices s) [])).
Proof.
  unfold tabulated, cells. apply nth_ext with (d := f []) (d' := f []); [rewrite !map_length, indices_length; unfold arange; now rewrite seq_length|].
  intros n Hn. rewrite map_length, indices_length in Hn. rewrite map_nth. set (k := fun m => f (nth m (indices s) [])).
  rewrite (nth_indep (map k (arange (size s))) (f []) (k 0%nat)) by (rewrite map_length; unfold arange; rewrite seq_length; exact Hn).
  rewrite (map_nth k). unfold arange. now rewrite seq_nth.
Qed.
Lemma nth_index1 n i : (i < n)%nat -> nth i (indices [n]) [] = [i].
Proof. intros H. rewrite nth_indices by (cbn; lia). cbn [size fold_right]. rewrite Nat.div_1_r, Nat.mod_1_r. reflexivity. Qed.
Lemma nth_index2 n Q i k : (i < n)%nat -> (k < Q)%nat -> nth (i * Q + k) (indices [n; Q]) [] = [i; k].
Proof.
  intros H K. assert ((i * Q + k < n * Q)%nat) by nia. rewrite nth_indices by (cbn; lia). replace (size [Q]) with Q by (cbn; lia). destruct (flat_index i k Q K) as [-> ->]. now rewrite nth_index1.
Qed.
Lemma nth_index3 n Q D i k c : (i < n)%nat -> (k < Q)%nat -> (c < D)%nat -> nth ((i * Q + k) * D + c) (indices [n; Q; D]) [] = [i; k; c].
Proof.
  intros H K C. assert (B1 : (i * Q + k < n * Q)%nat) by nia. assert (B2 : ((i * Q + k) * D + c < n * Q * D)%nat) by nia. rewrite nth_indices by (cbn; nia).
  replace (size [Q; D]) with (Q * D)%nat by (cbn; nia). assert (B3 : (k * D + c < Q * D)%nat) by nia. replace ((i * Q + k) * D + c)%nat with (i * (Q * D) + (k * D + c))%nat by nia.
  destruct (flat_index i (k * D + c) (Q * D) B3) as [-> ->]. now rewrite nth_index2.
Qed.
Lemma is_array_item h a s f idx : is_array h a s (tabulated s f) -> In idx (indices s) -> item h a idx = f idx.
Proof.
  intros (_ & <- & _ & E) I. unfold contents, tabulated in E. apply In_nth with (d := []) in I. destruct I as (n & Hn & <-).
  apply (f_equal (fun l => nth n l (item h a []))) in E. rewrite map_nth in E. rewrite E. rewrite (nth_indep _ _ (f [])) by (now rewrite map_length). apply map_nth.
Qed.
(** finishing a call that has filled its new array *)
Lemma wp_filled h0 h1 h n (m : M unit) s g f : nth_error h n = Some (mkbuffer Float64 (repeat 0 (size s))) -> n = length h1 -> extends h0 h1 -> extends h0 h ->
  (m (put h n (cells (size s) (fun _ => 0))) = Done tt (put h n (cells (size s) g))) -> (forall k, (k < size s)%nat -> g k = f (nth k (indices s) [])) ->
  wp h (m ;;; ret (MemFacts.fresh h1 s Float64)) (fun a h' => extends h0 h' /\ is_array h' a s (tabulated s f)).
Proof.
  intros B N X1 X E G. assert (n < length h)%nat by (apply nth_error_Some; congruence). pose proof (extends_length _ _ X1). rewrite <- zeros_cells in E. rewrite put_same in E by exact B.
  eapply wp_done; [exact E|]. apply wp_ret. split; [apply extends_put; [exact X|lia]|]. rewrite tabulated_cells, (cells_ext _ _ _ G). apply put_array; [congruence|assumption|apply cells_length].
Qed.

Ltac lengths := repeat match goal with X : extends ?a ?b |- _ => lazymatch goal with _ : (length a <= length b)%nat |- _ => fail | _ => pose proof (extends_length a b X) end end.
Ltac elsewhere := lengths; match goal with A : apart _ _ ?p |- p_buffer ?p <> _ => destruct A; lia end.

Section Tables.
Variable h : heap.
(** row [(i, k)] of an array of triangles or lines *)
Definition vertex_of (a : ndarray) (i k : nat) : vec3 := V3 (item h a [i; k; 0%nat]) (item h a [i; k; 1%nat]) (item h a [i; k; 2%nat]).
Lemma ld_triangle_row a h' p N i : at_ h a h' p -> nd_shape a = [N; 3%nat; 3%nat] -> (i < N)%nat -> ld_triangle (shift p (9 * i)) h' = Done (vertex_of a i 0, vertex_of a i 1, vertex_of a i 2) h'.
Proof.
  intros B S Hi. assert (SS : forall k m, shift (shift p k) m = shift p (k + m)) by (intros; unfold shift; cbn; f_equal; lia).
  unfold ld_triangle. rewrite !SS. rewrite (bnd_done _ _ _ _ _ (ld3_row h a h' p N 3 i 0 (9 * i) B S Hi ltac:(lia) ltac:(lia))).
  rewrite (bnd_done _ _ _ _ _ (ld3_row h a h' p N 3 i 1 (9 * i + 3) B S Hi ltac:(lia) ltac:(lia))). rewrite (bnd_done _ _ _ _ _ (ld3_row h a h' p N 3 i 2 (9 * i + 6) B S Hi ltac:(lia) ltac:(lia))). reflexivity.
Qed.
Lemma ret_triangle_areas t N : floats h t [N; 3%nat; 3%nat] ->
  returns_array h (triangle_areas_py t) [N] (tabulated [N] (fun idx => match idx with [i] => triangle_area (vertex_of t i 0) (vertex_of t i 1) (vertex_of t i 2) | _ => 0 end)).
Proof.
  intros (At & St & Tt). begin_array. unfold triangle_areas_py. repeat rstep h.
  set (f := fun i => triangle_area (vertex_of t i 0) (vertex_of t i 1) (vertex_of t i 2)).
  eapply (wp_filled h h _ (length h) _ [N] (fun m => if (m <? N)%nat then f m else 0)); [eassumption|reflexivity|assumption|assumption| |].
  - replace (size [N]) with N by (cbn; lia). unfold c_triangle_areas.
    apply (for_each_put h1 (length h) _ N (fun k => cells N (fun m => if (m <? k)%nat then f m else 0))).
    intros k Hk. assert (HN : (length h < length h1)%nat) by (apply nth_error_Some; congruence).
    assert (B : at_ h t (put h1 (length h) (cells N (fun m => if (m <? k)%nat then f m else 0))) p) by (apply block_put; [elsewhere|assumption]).
    rewrite (bnd_done _ _ _ _ _ (ld_triangle_row t _ _ N k B St Hk)). rewrite st_cells by assumption. f_equal. f_equal. apply cells_ext. intros m _.
    destruct (Nat.eqb_spec m k) as [->|]; [now rewrite (proj2 (Nat.ltb_lt _ _)) by lia|]. destruct (Nat.ltb_spec m k), (Nat.ltb_spec m (S k)); try lia; reflexivity.
  - intros k Hk. replace (size [N]) with N in Hk by (cbn; lia). rewrite nth_index1 by exact Hk. now rewrite (proj2 (Nat.ltb_lt _ _)) by exact Hk.
Qed.

(** ** Derivatives on the axis *)
Lemma val_axial_derivatives ring Q D zc Za Qa J X hh z q j x N N_z n :
  at_ h Za hh z -> nd_shape Za = [N_z] -> at_ h Qa hh q -> nd_shape Qa = [N] -> at_ h J hh j -> nd_shape J = [N; Q] -> at_ h X hh x -> nd_shape X = [N; Q; D] -> (zc < D)%nat ->
  p_buffer z <> n -> p_buffer q <> n -> p_buffer j <> n -> p_buffer x <> n -> (n < length hh)%nat ->
  c_axial_derivatives ring Q D zc (mkptr n 0) q j x N z N_z (put hh n (cells (N_z * 9) (fun _ => 0)))
  = Done tt (put hh n (cells (N_z * 9) (fun m => Rsum (map (fun a => Rsum (map (fun k =>
      item h Qa [a] * item h J [a; k] * nth (m mod 9) (ring (item h Za [m / 9]%nat) (item h X [a; k; 0%nat]) (item h X [a; k; zc])) 0) (arange Q))) (arange N))))).
Proof.
  intros HZ SZ HQ SQ HJ SJ HX SX C NZ NQ NJ NX Hn. unfold c_axial_derivatives. change DERIV_2D_MAX with 9%nat.
  set (t := fun i a k l m => if (m =? i * 9 + l)%nat then item h J [a; k] * item h Qa [a] * nth l (ring (item h Za [i]) (item h X [a; k; 0%nat]) (item h X [a; k; zc])) 0 else 0).
  rewrite (for_each_acc hh n (N_z * 9) _ (fun i m => Rsum (map (fun a => Rsum (map (fun k => Rsum (map (fun l => t i a k l m) (arange 9))) (arange Q))) (arange N)))).
  2:{ intros i g Hi. apply (for_each_acc hh n (N_z * 9) _ (fun a m => Rsum (map (fun k => Rsum (map (fun l => t i a k l m) (arange 9))) (arange Q)))). clear g.
      intros a g Ha. apply (for_each_acc hh n (N_z * 9) _ (fun k m => Rsum (map (fun l => t i a k l m) (arange 9)))). clear g. intros k g Hk.
      set (hp := put hh n (cells (N_z * 9) g)).
      assert (BZ : at_ h Za hp z) by (now apply block_put). assert (BX : at_ h X hp x) by (now apply block_put).
      rewrite (bnd_done _ _ _ _ _ (ld1 h Za hp z N_z i BZ SZ Hi)).
      rewrite (bnd_done _ _ _ _ _ (ld_at3 h X hp x N Q D a k 0 _ BX SX Ha Hk ltac:(lia) ltac:(symmetry; apply Nat.add_0_r))).
      rewrite (bnd_done _ _ _ _ _ (ld_at3 h X hp x N Q D a k zc _ BX SX Ha Hk C eq_refl)). clear BZ BX. unfold hp. clear hp.
      apply (for_each_acc hh n (N_z * 9) _ (t i a k)). clear g. intros l g Hl.
      set (hp := put hh n (cells (N_z * 9) g)).
      assert (BJ : at_ h J hp j) by (now apply block_put). assert (BQ : at_ h Qa hp q) by (now apply block_put).
      rewrite (bnd_done _ _ _ _ _ (ld2 h J hp j N Q a k BJ SJ Ha Hk)). rewrite (bnd_done _ _ _ _ _ (ld1 h Qa hp q N a BQ SQ Ha)). unfold hp.
      rewrite st_add_cells; [reflexivity|exact Hn|nia]. }
  f_equal. f_equal. apply cells_ext. intros m Hm.
  assert (H1 : (m / 9 < N_z)%nat) by (apply Nat.div_lt_upper_bound; lia). assert (H2 : (m mod 9 < 9)%nat) by (apply Nat.mod_upper_bound; lia).
  assert (H3 : m = (m / 9 * 9 + m mod 9)%nat) by (rewrite Nat.mul_comm; apply Nat.div_mod; lia).
  revert H1 H2 H3. generalize (m / 9)%nat (m mod 9)%nat. intros i l H1 H2 H3. rewrite Rplus_0_l. rewrite (Rsum_pick _ N_z i H1).
  - apply Rsum_map_ext. intros a _. apply Rsum_map_ext. intros k _. rewrite (Rsum_pick _ 9 l H2); [unfold t; rewrite H3, Nat.eqb_refl; ring|].
    intros l' Hl' Ne. unfold t. rewrite (proj2 (Nat.eqb_neq _ _)) by lia. reflexivity.
  - intros i' Hi' Ne. rewrite (Rsum_map_ext _ (fun _ => 0)); [apply Rsum_const0|]. intros a _. rewrite (Rsum_map_ext _ (fun _ => 0)); [apply Rsum_const0|]. intros k _.
    rewrite (Rsum_map_ext _ (fun _ => 0)); [apply Rsum_const0|]. intros l' Hl'. apply in_arange in Hl'. unfold t. rewrite (proj2 (Nat.eqb_neq _ _)) by lia. reflexivity.
Qed.
(** one row per position *)
Definition rows (s : list nat) (r : nat -> list R) : list R := tabulated s (fun idx => match idx with [i; l] => nth l (r i) 0 | _ => 0 end).
Lemma nth_axial_row ring z c l : (l < 9)%nat -> nth l (axial_row ring z c) 0 = evaluate (fun q => nth l (ring z (vx q) (vz q)) 0) c.
Proof. intros H. unfold axial_row. change (arange 9) with (arange 9). set (k := fun l => _). rewrite (nth_indep _ 0 (k 0%nat)) by (rewrite map_length; unfold arange; rewrite seq_length; exact H). rewrite map_nth. unfold arange. now rewrite seq_nth. Qed.
Lemma split_index N_z m : (m < size [N_z; 9%nat])%nat -> nth m (indices [N_z; 9%nat]) [] = [(m / 9)%nat; (m mod 9)%nat] /\ (m mod 9 < 9)%nat.
Proof.
  intros Hm. assert (Hm' : (m < N_z * 9)%nat) by (cbn in Hm; lia). assert (m / 9 < N_z)%nat by (apply Nat.div_lt_upper_bound; lia). assert (m mod 9 < 9)%nat by (apply Nat.mod_upper_bound; lia). split; [|assumption].
  rewrite <- (nth_index2 N_z 9 (m / 9) (m mod 9)) by assumption. f_equal. rewrite Nat.mul_comm. apply Nat.div_mod. lia.
Qed.
Lemma ret_axial_derivatives_radial z q j x N N_z : floats h z [N_z] -> floats h q [N] -> floats h j [N; 16%nat] -> floats h x [N; 16%nat; 2%nat] ->
  returns_array h (axial_derivatives_radial_py z q j x) [N_z; 9%nat] (rows [N_z; 9%nat] (fun i => axial_row axial_derivatives_radial_ring (item h z [i]) (line_charges h q j x))).
Proof.
  intros (Az & Sz & Tz) (Aq & Sq & Tq) (Aj & Sj & Tj) (Ax & Sx & Tx). begin_array. unfold axial_derivatives_radial_py. rewrite Sz. replace (size [N_z]) with N_z by (cbn; lia). change DERIV_2D_MAX with 9%nat. change N_QUAD_2D with 16%nat. repeat rstep h.
  match goal with |- wp ?hh _ _ => assert (Hn : (length h < length hh)%nat) by (apply nth_error_Some; congruence) end.
  eapply (wp_filled h h _ (length h) _ [N_z; 9%nat]); [eassumption|reflexivity|assumption|assumption| |].
  - replace (size [N_z; 9%nat]) with (N_z * 9)%nat by (cbn; lia). eapply val_axial_derivatives; try eassumption; try (elsewhere); try lia.
  - intros m Hm. destruct (split_index N_z m Hm) as [-> Hl]. rewrite nth_axial_row by exact Hl. unfold line_charges. rewrite double_sum, Sq. reflexivity.
Qed.
Lemma ret_current_axial_derivatives_radial z q j x N N_z : floats h z [N_z] -> floats h q [N] -> floats h j [N; 12%nat] -> floats h x [N; 12%nat; 3%nat] ->
  returns_array h (current_axial_derivatives_radial_py z q j x) [N_z; 9%nat] (rows [N_z; 9%nat] (fun i => axial_row current_axial_derivatives_radial_ring (item h z [i]) (triangle_charges h q j x))).
Proof.
  intros (Az & Sz & Tz) (Aq & Sq & Tq) (Aj & Sj & Tj) (Ax & Sx & Tx). begin_array. unfold current_axial_derivatives_radial_py. change DERIV_2D_MAX with 9%nat. change N_TRIANGLE_QUAD with 12%nat. rewrite Sz. replace (size [N_z]) with N_z by (cbn; lia). repeat rstep h.
  match goal with |- wp ?hh _ _ => assert (Hn : (length h < length hh)%nat) by (apply nth_error_Some; congruence) end.
  eapply (wp_filled h h _ (length h) _ [N_z; 9%nat]); [eassumption|reflexivity|assumption|assumption| |].
  - replace (size [N_z; 9%nat]) with (N_z * 9)%nat by (cbn; lia). eapply val_axial_derivatives; try eassumption; try (elsewhere); try lia.
  - intros m Hm. destruct (split_index N_z m Hm) as [-> Hl]. rewrite nth_axial_row by exact Hl. unfold triangle_charges. rewrite double_sum, Sq. reflexivity.
Qed.
End Tables.
