(** What the Python functions of the backend compute, in terms of the items of their arguments. *)
From Coq Require Import Reals Lra.
From Verif Require Import Base Vec GeomModel MemModel FieldModel SeriesModel Axial3DModel MatrixModel MemFacts BackendModel BackendSafe.
From Verif Require TracingModel.
Local Open Scope R_scope.
Local Open Scope mem_scope.

(** ** Items and positions in memory *)
Lemma nth_contents h a n : (n < size (nd_shape a))%nat -> nth n (contents h a) 0 = item h a (nth n (indices (nd_shape a)) []).
Proof.
  intros Hn. unfold contents. rewrite (nth_indep _ 0 (item h a [])) by (rewrite map_length, indices_length; exact Hn). apply map_nth.
Qed.
Lemma flat_index i k Q : (k < Q)%nat -> ((i * Q + k) / Q = i /\ (i * Q + k) mod Q = k)%nat.
Proof. intros H. split; [rewrite Nat.div_add_l by lia; rewrite Nat.div_small by lia; lia|rewrite Nat.add_comm, Nat.mod_add by lia; now apply Nat.mod_small]. Qed.
Lemma nth_contents1 h a n i : nd_shape a = [n] -> (i < n)%nat -> nth i (contents h a) 0 = item h a [i].
Proof.
  intros E H. rewrite nth_contents by (rewrite E; cbn; lia). rewrite E. rewrite nth_indices by (cbn; lia). cbn [size fold_right].
  rewrite Nat.div_1_r. rewrite Nat.mod_1_r. reflexivity.
Qed.
Lemma nth_contents2 h a n Q i k : nd_shape a = [n; Q] -> (i < n)%nat -> (k < Q)%nat -> nth (i * Q + k) (contents h a) 0 = item h a [i; k].
Proof.
  intros E H K. assert ((i * Q + k < n * Q)%nat) by nia.
  rewrite nth_contents by (rewrite E; cbn; lia). rewrite E. rewrite nth_indices by (cbn; lia).
  replace (size [Q]) with Q by (cbn; lia). destruct (flat_index i k Q K) as [-> ->].
  rewrite nth_indices by (cbn; lia). cbn [size fold_right]. rewrite Nat.div_1_r. rewrite Nat.mod_1_r. reflexivity.
Qed.
Lemma nth_contents3 h a n Q D i k c : nd_shape a = [n; Q; D] -> (i < n)%nat -> (k < Q)%nat -> (c < D)%nat ->
  nth ((i * Q + k) * D + c) (contents h a) 0 = item h a [i; k; c].
Proof.
  intros E H K C. assert (B1 : (i * Q + k < n * Q)%nat) by nia. assert (B2 : ((i * Q + k) * D + c < n * Q * D)%nat) by nia.
  rewrite nth_contents by (rewrite E; cbn; nia). rewrite E. rewrite nth_indices by (cbn; nia).
  replace (size [Q; D]) with (Q * D)%nat by (cbn; nia).
  assert (B3 : (k * D + c < Q * D)%nat) by nia.
  replace ((i * Q + k) * D + c)%nat with (i * (Q * D) + (k * D + c))%nat by nia.
  destruct (flat_index i (k * D + c) (Q * D) B3) as [-> ->].
  rewrite nth_indices by (cbn; nia). replace (size [D]) with D by (cbn; lia). destruct (flat_index k c D C) as [-> ->].
  rewrite nth_indices by (cbn; lia). cbn [size fold_right]. rewrite Nat.div_1_r. rewrite Nat.mod_1_r. reflexivity.
Qed.

(** ** Loops that only read *)
Lemma loop_from_pure {A} h (f : nat -> A -> A) body n : forall i acc,
  (forall k a, (i <= k < i + n)%nat -> body k a h = Done (f k a) h) ->
  loop_from i n body acc h = Done (fold_left (fun a k => f k a) (seq i n) acc) h.
Proof.
  induction n as [|n IH]; intros i acc H; cbn [loop_from seq fold_left]; [reflexivity|].
  unfold bnd. rewrite H by lia. apply IH. intros. apply H. lia.
Qed.
Lemma loop_pure {A} h (f : nat -> A -> A) body n acc : (forall k a, (k < n)%nat -> body k a h = Done (f k a) h) ->
  loop n acc body h = Done (fold_left (fun a k => f k a) (arange n) acc) h.
Proof. intros H. apply loop_from_pure. intros. apply H. lia. Qed.
Lemma fold_sum (f : nat -> R) l : forall s, fold_left (fun a k => a + f k) l s = s + Rsum (map f l).
Proof. induction l as [|x l IH]; intros s; cbn; [lra|]. rewrite IH. lra. Qed.
Lemma fold_sum2 (f g : nat -> R) l : forall s, fold_left (fun a k => (fst a + f k, snd a + g k)) l s = (fst s + Rsum (map f l), snd s + Rsum (map g l)).
Proof. induction l as [|x l IH]; intros s; cbn; [destruct s; cbn; f_equal; lra|]. rewrite IH. cbn. f_equal; lra. Qed.
Lemma fold_ext {A} (f g : A -> nat -> A) l : (forall a k, In k l -> f a k = g a k) -> forall s, fold_left f l s = fold_left g l s.
Proof. induction l as [|x l IH]; intros H s; cbn; [reflexivity|]. rewrite H by (left; reflexivity). apply IH. intros. apply H. now right. Qed.
Lemma in_arange k n : In k (arange n) <-> (k < n)%nat.
Proof. unfold arange. rewrite in_seq. lia. Qed.
Lemma ld_block h p cells i : block h p Float64 cells -> (i < length cells)%nat -> ld p i h = Done (nth i cells 0) h.
Proof. intros H Hi. apply (H i Hi). Qed.
Lemma ld_shift p k i h : ld (shift p k) i h = ld p (k + i) h.
Proof. unfold ld, load, shift. cbn [p_buffer p_offset]. now rewrite Nat2Z.inj_add, Z.add_assoc. Qed.
Lemma st_shift p k i v h : st (shift p k) i v h = st p (k + i) v h.
Proof. unfold st, store, shift. cbn [p_buffer p_offset]. now rewrite Nat2Z.inj_add, Z.add_assoc. Qed.
Lemma ld3_block h p cells k : block h p Float64 cells -> (k + 3 <= length cells)%nat ->
  ld3 (shift p k) h = Done (V3 (nth k cells 0) (nth (k + 1) cells 0) (nth (k + 2) cells 0)) h.
Proof.
  intros H Hk. unfold ld3, bnd. rewrite ld_shift, (ld_block _ _ cells) by (auto; lia). rewrite ld_shift, (ld_block _ _ cells) by (auto; lia).
  rewrite ld_shift, (ld_block _ _ cells) by (auto; lia). rewrite Nat.add_0_r. reflexivity.
Qed.
Lemma ld3_block0 h p cells : block h p Float64 cells -> (3 <= length cells)%nat -> ld3 p h = Done (V3 (nth 0 cells 0) (nth 1 cells 0) (nth 2 cells 0)) h.
Proof. intros H Hk. unfold ld3, bnd. rewrite !(ld_block _ _ cells) by (auto; lia). reflexivity. Qed.

(** The charges described by three arrays. *)
Definition source_of (h : heap) (j x : ndarray) (Q : nat) (pos : nat -> nat -> vec3) (i : nat) : source := map (fun k => (item h j [i; k], pos i k)) (arange Q).
Definition line_charges (h : heap) (q j x : ndarray) : charges :=
  mkcharges LINE_RULE (map (fun i => (item h q [i], map (fun k => (item h j [i; k], V3 (item h x [i; k; 0%nat]) 0 (item h x [i; k; 1%nat]))) (arange 16)))
                           (arange (hd 0%nat (nd_shape q)))).
Definition triangle_charges (h : heap) (q j x : ndarray) : charges :=
  mkcharges TRIANGLE_RULE (map (fun i => (item h q [i], map (fun k => (item h j [i; k], V3 (item h x [i; k; 0%nat]) (item h x [i; k; 1%nat]) (item h x [i; k; 2%nat]))) (arange 12)))
                           (arange (hd 0%nat (nd_shape q)))).
Definition point_of (h : heap) (p : ndarray) : vec3 := V3 (item h p [0%nat]) (item h p [1%nat]) (item h p [2%nat]).

Lemma Rsum_scale (c : R) (f : nat -> R) l : Rsum (map (fun k => c * f k) l) = c * Rsum (map f l).
Proof. induction l as [|x l IH]; cbn; [lra|]. rewrite IH. lra. Qed.
Lemma Rsum_map_ext {A} (f g : A -> R) l : (forall x, In x l -> f x = g x) -> Rsum (map f l) = Rsum (map g l).
Proof. intros H. f_equal. now apply map_ext_in. Qed.
(** a double sum of charge times jacobian times kernel *)
Lemma double_sum (q : nat -> R) (j : nat -> nat -> R) (x : nat -> nat -> vec3) (ker : vec3 -> R) rl Q N :
  evaluate ker (mkcharges rl (map (fun i => (q i, map (fun k => (j i k, x i k)) (arange Q))) (arange N)))
  = Rsum (map (fun i => Rsum (map (fun k => q i * j i k * ker (x i k)) (arange Q))) (arange N)).
Proof.
  unfold evaluate. cbn [q_items]. rewrite map_map. apply Rsum_map_ext. intros i _. cbn [fst snd]. unfold source_sum. rewrite map_map. cbn [fst snd].
  rewrite <- Rsum_scale. apply Rsum_map_ext. intros k _. ring.
Qed.

(** the values of the loops *)
Lemma sum_loop h (t : nat -> nat -> R) body N Q s0 :
  (forall i k s, (i < N)%nat -> (k < Q)%nat -> body i k s h = Done (s + t i k) h) ->
  loop N s0 (fun i s => loop Q s (fun k s => body i k s)) h = Done (s0 + Rsum (map (fun i => Rsum (map (t i) (arange Q))) (arange N))) h.
Proof.
  intros H. rewrite (loop_pure h (fun i s => s + Rsum (map (t i) (arange Q)))).
  - f_equal. apply fold_sum.
  - intros i s Hi. rewrite (loop_pure h (fun k s => s + t i k)); [f_equal; apply fold_sum|]. intros k a Hk. now apply H.
Qed.
Lemma sum_loop2 h (t u : nat -> nat -> R) body N Q s0 :
  (forall i k s, (i < N)%nat -> (k < Q)%nat -> body i k s h = Done (fst s + t i k, snd s + u i k) h) ->
  loop N s0 (fun i s => loop Q s (fun k s => body i k s)) h
  = Done (fst s0 + Rsum (map (fun i => Rsum (map (t i) (arange Q))) (arange N)), snd s0 + Rsum (map (fun i => Rsum (map (u i) (arange Q))) (arange N))) h.
Proof.
  intros H. rewrite (loop_pure h (fun i s => (fst s + Rsum (map (t i) (arange Q)), snd s + Rsum (map (u i) (arange Q))))).
  - f_equal. apply fold_sum2.
  - intros i s Hi. rewrite (loop_pure h (fun k s => (fst s + t i k, snd s + u i k))); [f_equal; apply fold_sum2|]. intros k a Hk. now apply H.
Qed.
Lemma fold_sum3 (f : nat -> vec3) l : forall s, fold_left (fun a k => vadd a (f k)) l s
  = vadd s (V3 (Rsum (map (fun k => vx (f k)) l)) (Rsum (map (fun k => vy (f k)) l)) (Rsum (map (fun k => vz (f k)) l))).
Proof. induction l as [|x l IH]; intros s; cbn; [destruct s; unfold vadd; cbn; f_equal; lra|]. rewrite IH. destruct s, (f x); unfold vadd; cbn. f_equal; lra. Qed.
Lemma sum_loop3 h (t : nat -> nat -> vec3) body N Q s0 :
  (forall i k s, (i < N)%nat -> (k < Q)%nat -> body i k s h = Done (vadd s (t i k)) h) ->
  loop N s0 (fun i s => loop Q s (fun k s => body i k s)) h
  = Done (vadd s0 (V3 (Rsum (map (fun i => Rsum (map (fun k => vx (t i k)) (arange Q))) (arange N)))
                      (Rsum (map (fun i => Rsum (map (fun k => vy (t i k)) (arange Q))) (arange N)))
                      (Rsum (map (fun i => Rsum (map (fun k => vz (t i k)) (arange Q))) (arange N))))) h.
Proof.
  intros H. rewrite (loop_pure h (fun i s => vadd s (V3 (Rsum (map (fun k => vx (t i k)) (arange Q))) (Rsum (map (fun k => vy (t i k)) (arange Q)))
                      (Rsum (map (fun k => vz (t i k)) (arange Q)))))).
  - f_equal. rewrite fold_sum3. cbn. reflexivity.
  - intros i s Hi. rewrite (loop_pure h (fun k s => vadd s (t i k))); [f_equal; apply fold_sum3|]. intros k a Hk. now apply H.
Qed.

(** ** C functions on blocks holding the items of arrays *)
Definition at_ (h0 : heap) (a : ndarray) (h : heap) (p : ptr) : Prop := block h p Float64 (contents h0 a).
Lemma ld1 h0 a h p n i : at_ h0 a h p -> nd_shape a = [n] -> (i < n)%nat -> ld p i h = Done (item h0 a [i]) h.
Proof. intros B E H. rewrite (ld_block _ _ _ _ B) by (rewrite contents_length, E; cbn; lia). f_equal. now apply nth_contents1 with (n := n). Qed.
Lemma ld2 h0 a h p n Q i k : at_ h0 a h p -> nd_shape a = [n; Q] -> (i < n)%nat -> (k < Q)%nat -> ld p (i * Q + k) h = Done (item h0 a [i; k]) h.
Proof. intros B E H K. rewrite (ld_block _ _ _ _ B) by (rewrite contents_length, E; cbn; nia). f_equal. now apply nth_contents2 with (n := n). Qed.
Lemma flat3_lt i k c n Q D : (i < n -> k < Q -> c < D -> (i * Q + k) * D + c < n * Q * D)%nat.
Proof. intros. assert (i * Q + k < n * Q)%nat by nia. nia. Qed.
Lemma ld_at3 h0 a h p n Q D i k c m : at_ h0 a h p -> nd_shape a = [n; Q; D] -> (i < n)%nat -> (k < Q)%nat -> (c < D)%nat ->
  m = ((i * Q + k) * D + c)%nat -> ld p m h = Done (item h0 a [i; k; c]) h.
Proof.
  intros B E H K C ->. pose proof (flat3_lt i k c n Q D H K C).
  rewrite (ld_block _ _ _ _ B) by (rewrite contents_length, E; cbn; lia). f_equal. now apply nth_contents3 with (n := n).
Qed.
Lemma ld3_point h0 a h p : at_ h0 a h p -> nd_shape a = [3%nat] -> ld3 p h = Done (point_of h0 a) h.
Proof. intros B E. unfold ld3, bnd. rewrite (ld1 h0 a h p 3 0), (ld1 h0 a h p 3 1), (ld1 h0 a h p 3 2) by (auto; lia). reflexivity. Qed.
Lemma ld3_row h0 a h p n Q i k m : at_ h0 a h p -> nd_shape a = [n; Q; 3%nat] -> (i < n)%nat -> (k < Q)%nat -> m = ((i * Q + k) * 3)%nat ->
  ld3 (shift p m) h = Done (V3 (item h0 a [i; k; 0%nat]) (item h0 a [i; k; 1%nat]) (item h0 a [i; k; 2%nat])) h.
Proof.
  intros B E H K ->. unfold ld3, bnd. rewrite ld_shift, (ld_at3 h0 a h p n Q 3 i k 0) by (auto; lia).
  rewrite ld_shift, (ld_at3 h0 a h p n Q 3 i k 1) by (auto; lia). rewrite ld_shift, (ld_at3 h0 a h p n Q 3 i k 2) by (auto; lia). reflexivity.
Qed.

Lemma bnd_done {A B} (m : M A) (f : A -> M B) h a h' : m h = Done a h' -> bnd m f h = f a h'.
Proof. intros E. unfold bnd. now rewrite E. Qed.
Ltac rd L := rewrite (bnd_done _ _ _ _ _ L); cbv beta.

Section CValues.
Variables (h0 h : heap) (P Qa J X : ndarray) (p q j x : ptr) (N : nat).
Hypothesis HP : at_ h0 P h p.  Hypothesis SP : nd_shape P = [3%nat].
Hypothesis HQ : at_ h0 Qa h q.  Hypothesis SQ : nd_shape Qa = [N].
Hypothesis HJ : at_ h0 J h j.
Hypothesis HX : at_ h0 X h x.
Section Lines.
Hypothesis SJ : nd_shape J = [N; 16%nat].
Hypothesis SX : nd_shape X = [N; 16%nat; 2%nat].
Lemma rX i k c m : (i < N)%nat -> (k < 16)%nat -> (c < 2)%nat -> m = ((i * 16 + k) * 2 + c)%nat -> ld x m h = Done (item h0 X [i; k; c]) h.
Proof. intros. now apply (ld_at3 h0 X h x N 16 2 i k c). Qed.
Lemma rJ i k : (i < N)%nat -> (k < 16)%nat -> ld j (i * 16 + k) h = Done (item h0 J [i; k]) h.
Proof. intros. now apply (ld2 h0 J h j N 16 i k). Qed.
Lemma rQ i : (i < N)%nat -> ld q i h = Done (item h0 Qa [i]) h.
Proof. intros. now apply (ld1 h0 Qa h q N i). Qed.
Lemma rP i : (i < 3)%nat -> ld p i h = Done (item h0 P [i]) h.
Proof. intros. now apply (ld1 h0 P h p 3 i). Qed.
Lemma val_potential_radial : c_potential_radial p q j x N h = Done (FieldModel.potential_radial (point_of h0 P) (line_charges h0 Qa J X)) h.
Proof.
  unfold c_potential_radial, bnd at 1. rewrite (ld3_point h0 P) by assumption.
  unfold FieldModel.potential_radial, line_charges. rewrite double_sum, SQ. cbn [hd].
  rewrite (sum_loop h (fun i k => item h0 Qa [i] * item h0 J [i; k] *
     potential_radial_ring (norm_2d (vx (point_of h0 P)) (vy (point_of h0 P))) (vz (point_of h0 P)) (item h0 X [i; k; 0%nat]) (item h0 X [i; k; 1%nat]))).
  - f_equal. rewrite Rplus_0_l. reflexivity.
  - intros i k s Hi Hk. change N_QUAD_2D with 16%nat in *. rd (rX i k 0 _ Hi Hk ltac:(lia) ltac:(symmetry; apply Nat.add_0_r)). rd (rX i k 1 _ Hi Hk ltac:(lia) eq_refl). rd (rQ i Hi). rd (rJ i k Hi Hk). reflexivity.
Qed.
Definition stores_field (f : ptr) (v : vec3) (m : M unit) : Prop := m h = st3 f v h.
Lemma neg_sum (f : nat -> nat -> R) l m : Rsum (map (fun i => Rsum (map (fun k => - f i k) l)) m) = - Rsum (map (fun i => Rsum (map (f i) l)) m).
Proof.
  rewrite <- (Rmult_1_l (Rsum (map (fun i => Rsum (map (f i) l)) m))), Ropp_mult_distr_l, <- Rsum_scale. apply Rsum_map_ext. intros i _.
  rewrite <- Rsum_scale. apply Rsum_map_ext. intros; ring.
Qed.
Lemma val_field_radial f : c_field_radial p f q j x N h = st3 f (FieldModel.field_radial (point_of h0 P) (line_charges h0 Qa J X)) h.
Proof.
  unfold c_field_radial. unfold bnd at 1. rewrite (ld1 h0 P h p 3) by (auto; lia). unfold bnd at 1. rewrite (ld1 h0 P h p 3) by (auto; lia).
  cbv zeta. unfold bnd at 1.
  rewrite (sum_loop2 h (fun i k => - (item h0 Qa [i] * item h0 J [i; k] *
     dr1_potential_radial_ring (norm_2d (item h0 P [0%nat]) (item h0 P [1%nat])) (item h0 P [2%nat]) (item h0 X [i; k; 0%nat]) (item h0 X [i; k; 1%nat])))
   (fun i k => - (item h0 Qa [i] * item h0 J [i; k] *
     dz1_potential_radial_ring (norm_2d (item h0 P [0%nat]) (item h0 P [1%nat])) (item h0 P [2%nat]) (item h0 X [i; k; 0%nat]) (item h0 X [i; k; 1%nat])))).
  2:{ intros i k s Hi Hk. change N_QUAD_2D with 16%nat in *. rd (rX i k 0 _ Hi Hk ltac:(lia) ltac:(symmetry; apply Nat.add_0_r)). rd (rX i k 1 _ Hi Hk ltac:(lia) eq_refl). rd (rP 2 ltac:(lia)). rd (rQ i Hi). rd (rJ i k Hi Hk). reflexivity. }
  unfold FieldModel.field_radial, from_cylinder, line_charges. rewrite !double_sum, SQ. cbn [hd point_of vx vy vz fst snd].
  rewrite !neg_sum, !Rplus_0_l.
  destruct (Rle_dec MIN_DISTANCE_AXIS _); unfold st3; cbn [vx vy vz]; unfold bnd; destruct (st f 0 _ h); try reflexivity; destruct (st f 1 _ h1); reflexivity.
Qed.
End Lines.
Section Triangles.
Hypothesis SJ : nd_shape J = [N; 12%nat].
Hypothesis SX : nd_shape X = [N; 12%nat; 3%nat].
Lemma tX i k c m : (i < N)%nat -> (k < 12)%nat -> (c < 3)%nat -> m = ((i * 12 + k) * 3 + c)%nat -> ld x m h = Done (item h0 X [i; k; c]) h.
Proof. intros. now apply (ld_at3 h0 X h x N 12 3 i k c). Qed.
Lemma tR i k : (i < N)%nat -> (k < 12)%nat -> ld3 (shift x ((i * 12 + k) * 3)) h = Done (V3 (item h0 X [i; k; 0%nat]) (item h0 X [i; k; 1%nat]) (item h0 X [i; k; 2%nat])) h.
Proof. intros. now apply (ld3_row h0 X h x N 12 i k). Qed.
Lemma tJ i k : (i < N)%nat -> (k < 12)%nat -> ld j (i * 12 + k) h = Done (item h0 J [i; k]) h.
Proof. intros. now apply (ld2 h0 J h j N 12 i k). Qed.
Lemma tQ i : (i < N)%nat -> ld q i h = Done (item h0 Qa [i]) h.
Proof. intros. now apply (ld1 h0 Qa h q N i). Qed.
Lemma tP i : (i < 3)%nat -> ld p i h = Done (item h0 P [i]) h.
Proof. intros. now apply (ld1 h0 P h p 3 i). Qed.
Lemma val_potential_3d : c_potential_3d p q j x N h = Done (FieldModel.potential_3d (point_of h0 P) (triangle_charges h0 Qa J X)) h.
Proof.
  unfold c_potential_3d. unfold FieldModel.potential_3d, triangle_charges. rewrite double_sum, SQ. cbn [hd].
  rewrite (sum_loop h (fun i k => item h0 Qa [i] * item h0 J [i; k] *
     potential_3d_point (point_of h0 P) (V3 (item h0 X [i; k; 0%nat]) (item h0 X [i; k; 1%nat]) (item h0 X [i; k; 2%nat])))).
  - f_equal. rewrite Rplus_0_l. reflexivity.
  - intros i k s Hi Hk. change N_TRIANGLE_QUAD with 12%nat in *. unfold bnd at 1. rewrite (ld3_point h0 P) by assumption.
    rd (tR i k Hi Hk). rd (tQ i Hi). rd (tJ i k Hi Hk). reflexivity.
Qed.
Lemma val_field_3d f : c_field_3d p f q j x N h = st3 f (FieldModel.field_3d (point_of h0 P) (triangle_charges h0 Qa J X)) h.
Proof.
  unfold c_field_3d. unfold bnd at 1.
  rewrite (sum_loop3 h (fun i k => let y := V3 (item h0 X [i; k; 0%nat]) (item h0 X [i; k; 1%nat]) (item h0 X [i; k; 2%nat]) in let w := item h0 Qa [i] * item h0 J [i; k] in
     V3 (- (w * dx1_potential_3d_point (point_of h0 P) y)) (- (w * dy1_potential_3d_point (point_of h0 P) y)) (- (w * dz1_potential_3d_point (point_of h0 P) y)))).
  - f_equal. unfold FieldModel.field_3d, triangle_charges. rewrite !double_sum, SQ. cbn [hd vx vy vz]. rewrite !neg_sum. unfold vadd, vzero. cbn [vx vy vz]. rewrite !Rplus_0_l. reflexivity.
  - intros i k s Hi Hk. change N_TRIANGLE_QUAD with 12%nat in *. unfold bnd at 1. rewrite (ld3_point h0 P) by assumption.
    rd (tR i k Hi Hk). rd (tQ i Hi). rd (tJ i k Hi Hk). reflexivity.
Qed.
Lemma val_current_field f : c_current_field p f q j x N h = st3 f (FieldModel.current_field (point_of h0 P) (triangle_charges h0 Qa J X)) h.
Proof.
  unfold c_current_field. unfold bnd at 1. rewrite (ld1 h0 P h p 3) by (auto; lia). unfold bnd at 1. rewrite (ld1 h0 P h p 3) by (auto; lia).
  cbv zeta. unfold bnd at 1.
  rewrite (sum_loop2 h (fun i k => item h0 Qa [i] * item h0 J [i; k] *
     fst (current_field_radial_ring (norm_2d (item h0 P [0%nat]) (item h0 P [1%nat])) (item h0 P [2%nat]) (item h0 X [i; k; 0%nat]) (item h0 X [i; k; 2%nat])))
   (fun i k => item h0 Qa [i] * item h0 J [i; k] *
     snd (current_field_radial_ring (norm_2d (item h0 P [0%nat]) (item h0 P [1%nat])) (item h0 P [2%nat]) (item h0 X [i; k; 0%nat]) (item h0 X [i; k; 2%nat])))).
  2:{ intros i k s Hi Hk. change N_TRIANGLE_QUAD with 12%nat in *. rd (tX i k 0 _ Hi Hk ltac:(lia) ltac:(symmetry; apply Nat.add_0_r)). rd (tX i k 2 _ Hi Hk ltac:(lia) eq_refl). rd (tP 2 ltac:(lia)). rd (tQ i Hi). rd (tJ i k Hi Hk). reflexivity. }
  unfold FieldModel.current_field, from_cylinder, triangle_charges. rewrite !double_sum, SQ. cbn [hd point_of vx vy vz fst snd].
  rewrite !Rplus_0_l.
  destruct (Rle_dec MIN_DISTANCE_AXIS _); unfold st3; cbn [vx vy vz]; unfold bnd; destruct (st f 0 _ h); try reflexivity; destruct (st f 1 _ h1); reflexivity.
Qed.
Lemma val_current_potential_axial z0 : c_current_potential_axial z0 q j x N h
  = Done (evaluate (fun y => current_potential_axial_radial_ring z0 (vx y) (vz y)) (triangle_charges h0 Qa J X)) h.
Proof.
  unfold c_current_potential_axial, triangle_charges. rewrite double_sum, SQ. cbn [hd].
  rewrite (sum_loop h (fun i k => item h0 Qa [i] * item h0 J [i; k] * current_potential_axial_radial_ring z0 (item h0 X [i; k; 0%nat]) (item h0 X [i; k; 2%nat]))).
  - f_equal. rewrite Rplus_0_l. reflexivity.
  - intros i k s Hi Hk. change N_TRIANGLE_QUAD with 12%nat in *. rd (tX i k 0 _ Hi Hk ltac:(lia) ltac:(symmetry; apply Nat.add_0_r)). rd (tX i k 2 _ Hi Hk ltac:(lia) eq_refl). rd (tQ i Hi). rd (tJ i k Hi Hk). reflexivity.
Qed.
End Triangles.
End CValues.
