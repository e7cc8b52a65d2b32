(** What the Python functions of the backend return: stepping through a call. *)
From Coq Require Import Reals Lra.
From Verif Require Import Base Vec GeomModel MemModel FieldModel SeriesModel Axial3DModel MatrixModel MemFacts BackendModel BackendSafe BackendValues.
From Verif Require TracingModel.
Local Open Scope R_scope.
Local Open Scope mem_scope.

(** The call returns [v] and memory that existed before is unchanged. *)
Definition returns_value {A} (h : heap) (m : M A) (v : A) : Prop := exists h', m h = Done v h' /\ extends h h'.
(** The call returns an array of the given shape and items. *)
Definition is_array (h : heap) (a : ndarray) (shape : list nat) (items : list R) : Prop :=
  array_ok h a /\ nd_shape a = shape /\ nd_dtype a = Float64 /\ contents h a = items.
Definition returns_array (h : heap) (m : M ndarray) (shape : list nat) (items : list R) : Prop :=
  exists a h', m h = Done a h' /\ extends h h' /\ is_array h' a shape items.

(** ** Stepping *)
Definition wp {A} (h : heap) (m : M A) (Q : A -> heap -> Prop) : Prop := exists a h', m h = Done a h' /\ Q a h'.
Lemma wp_done {A B} h (m : M A) (k : A -> M B) Q a h' : m h = Done a h' -> wp h' (k a) Q -> wp h (bnd m k) Q.
Proof. intros E (b & h2 & H & HQ). exists b, h2. split; [|exact HQ]. unfold bnd. now rewrite E. Qed.
Lemma wp_ret {A} h (a : A) (Q : A -> heap -> Prop) : Q a h -> wp h (ret a) Q.
Proof. intros H. exists a, h. split; [reflexivity|exact H]. Qed.
Lemma wp_assert {A} h b (k : M A) Q : b = true -> wp h k Q -> wp h (bnd (assertM b) (fun _ => k)) Q.
Proof. intros -> H. exact H. Qed.
Lemma wp_len {A} h a n rest (k : nat -> M A) Q : nd_shape a = n :: rest -> wp h (k n) Q -> wp h (bnd (py_len a) k) Q.
Proof. intros E H. apply (wp_done _ _ _ _ n h); [|exact H]. unfold py_len. now rewrite E. Qed.
Lemma extends_refl h : extends h h. Proof. exists []. now rewrite app_nil_r. Qed.
Lemma extends_trans a b c : extends a b -> extends b c -> extends a c.
Proof. intros (e & ->) (f & ->). exists (e ++ f). now rewrite app_assoc. Qed.
Lemma extends_new h b : extends h (h ++ [b]). Proof. now exists [b]. Qed.
Lemma extends_block h h' p t cells : extends h h' -> block h p t cells -> block h' p t cells.
Proof. intros (e & ->). apply block_app. Qed.
Lemma extends_contents h h' a : extends h h' -> array_ok h a -> contents h' a = contents h a.
Proof. intros (e & ->). apply contents_app. Qed.
Lemma extends_item h h' a idx : extends h h' -> array_ok h a -> item h' a idx = item h a idx.
Proof. intros (e & ->). apply item_app. Qed.
Lemma extends_nth h h' n b : extends h h' -> nth_error h n = Some b -> nth_error h' n = Some b.
Proof. intros (e & ->) E. rewrite nth_error_app1; [exact E|]. apply nth_error_Some. congruence. Qed.
Lemma extends_length h h' : extends h h' -> (length h <= length h')%nat.
Proof. intros (e & ->). rewrite app_length. lia. Qed.
(** a pointer into memory apart from the new buffers of a call *)
Definition apart (h0 h : heap) (p : ptr) : Prop := (p_buffer p < length h0)%nat \/ (length h <= p_buffer p)%nat.
Lemma wp_pass {A} h0 h sp a t (k : ptr -> M A) Q : array_ok h0 a -> extends h0 h -> accepts sp a = true -> nd_dtype a = t ->
  (forall p h', extends h h' -> block h' p t (contents h0 a) -> apart h0 h p -> wp h' (k p) Q) -> wp h (bnd (pass sp a) k) Q.
Proof.
  intros Ha E Ac <- H. pose proof (extends_array _ _ _ E Ha) as Ha'. unfold pass.
  destruct (is_contiguous a) eqn:C.
  - apply (wp_done _ _ _ _ (nd_base a) h); [unfold bnd, ensure_contiguous_aligned; rewrite C, Ac; reflexivity|].
    apply H; [apply extends_refl| |].
    + rewrite <- (extends_contents _ _ _ E Ha). now apply contiguous_block.
    + left. destruct Ha as (_ & b & Hb & _). apply nth_error_Some. congruence.
  - apply (wp_done _ _ _ _ (mkptr (length h) 0) (h ++ [mkbuffer (nd_dtype a) (contents h a)])).
    + unfold bnd, ensure_contiguous_aligned. rewrite C, new_array_eq. replace (accepts sp (fresh h (nd_shape a) (nd_dtype a))) with (accepts sp a) by (destruct sp; reflexivity). rewrite Ac. reflexivity.
    + apply H; [apply extends_new| |right; cbn; lia]. rewrite <- (extends_contents _ _ _ E Ha). pose proof (contents_length h a) as L.
      pose proof (contiguous_block _ _ (fresh_ok h (nd_shape a) (nd_dtype a) _ L) (fresh_contiguous _ _ _)) as B. now rewrite (fresh_contents _ _ _ _ L) in B.
Qed.
(** np.zeros, and a.astype: the new array is buffer number [length h] *)
Lemma wp_zeros {A} h s (k : ndarray -> M A) Q :
  (forall h', extends h h' -> nth_error h' (length h) = Some (mkbuffer Float64 (repeat 0 (size s))) -> length h' = S (length h) -> wp h' (k (MemFacts.fresh h s Float64)) Q) ->
  wp h (bnd (np_zeros s) k) Q.
Proof.
  intros H. eapply wp_done; [apply new_array_eq|]. apply H; [apply extends_new| |rewrite app_length; cbn; lia]. now rewrite nth_error_app2, Nat.sub_diag by lia.
Qed.
Lemma wp_astype {A} h0 h a (k : ndarray -> M A) Q : array_ok h0 a -> extends h0 h ->
  (forall h', extends h h' -> block h' (mkptr (length h) 0) Float64 (contents h0 a) -> length h' = S (length h) -> wp h' (k (MemFacts.fresh h (nd_shape a) Float64)) Q) ->
  wp h (bnd (astype_float a) k) Q.
Proof.
  intros Ha E H. eapply wp_done; [apply new_array_eq|]. pose proof (contents_length h a) as L.
  apply H; [apply extends_new| |rewrite app_length; cbn; lia].
  pose proof (contiguous_block _ _ (fresh_ok h (nd_shape a) Float64 _ L) (fresh_contiguous _ _ _)) as B. rewrite (fresh_contents _ _ _ _ L) in B. rewrite <- (extends_contents _ _ _ E Ha). exact B.
Qed.
Lemma wp_pass_new {A} h1 h sp s t (k : ptr -> M A) Q : accepts sp (MemFacts.fresh h1 s t) = true -> wp h (k (mkptr (length h1) 0)) Q -> wp h (bnd (pass sp (MemFacts.fresh h1 s t)) k) Q.
Proof. intros Ac H. eapply wp_done; [|exact H]. rewrite pass_fresh, Ac. reflexivity. Qed.

(** ** Outputs *)
(** buffer [n] holds [cells] *)
Definition put (h : heap) (n : nat) (cells : list R) : heap := upd h n (mkbuffer Float64 cells).
Lemma nth_upd {A} (l : list A) i x : (i < length l)%nat -> nth_error (upd l i x) i = Some x.
Proof. revert i. induction l as [|y l IH]; intros [|i] H; cbn in *; try lia; [reflexivity|]. apply IH. lia. Qed.
Lemma nth_upd_other {A} (l : list A) i j x : i <> j -> nth_error (upd l i x) j = nth_error l j.
Proof. revert i j. induction l as [|y l IH]; intros [|i] [|j] H; cbn; try congruence; try reflexivity. apply IH. lia. Qed.
Lemma upd_upd {A} (l : list A) i x y : upd (upd l i x) i y = upd l i y.
Proof. revert i. induction l as [|z l IH]; intros [|i]; cbn; try reflexivity. now rewrite IH. Qed.
Lemma upd_same {A} (l : list A) i x : nth_error l i = Some x -> upd l i x = l.
Proof. revert i. induction l as [|z l IH]; intros [|i] H; cbn in *; try discriminate; [now injection H as ->|]. now rewrite IH. Qed.
Lemma upd_app2 {A} (l e : list A) n x : (length l <= n)%nat -> upd (l ++ e) n x = l ++ upd e (n - length l) x.
Proof. revert n. induction l as [|y l IH]; intros n H; cbn in *; [now rewrite Nat.sub_0_r|]. destruct n as [|n]; [lia|]. cbn. now rewrite IH by lia. Qed.
Lemma put_put h n a b : put (put h n a) n b = put h n b. Proof. apply upd_upd. Qed.
Lemma put_same h n cells : nth_error h n = Some (mkbuffer Float64 cells) -> put h n cells = h. Proof. apply upd_same. Qed.
Lemma put_length h n cells : length (put h n cells) = length h. Proof. apply upd_length. Qed.
Lemma extends_put h0 h n cells : extends h0 h -> (length h0 <= n)%nat -> extends h0 (put h n cells).
Proof. intros (e & ->) H. unfold put. rewrite upd_app2 by exact H. eexists. reflexivity. Qed.
Lemma load_put h n cells t p i : p_buffer p <> n -> forall r, load t p i h = Done r h -> load t p i (put h n cells) = Done r (put h n cells).
Proof.
  intros H r E. unfold load in *. unfold put. rewrite nth_upd_other by congruence. destruct (nth_error h (p_buffer p)) as [b|]; [|discriminate].
  destruct (_ && _); [|discriminate]. destruct (nth_error (b_cells b) _); [|discriminate]. now injection E as ->.
Qed.
Lemma block_put h n cells p t c : p_buffer p <> n -> block h p t c -> block (put h n cells) p t c.
Proof. intros H B i Hi. apply load_put; [exact H|]. now apply B. Qed.
Lemma st_put h n cells i v : (n < length h)%nat -> (i < length cells)%nat -> st (mkptr n 0) i v (put h n cells) = Done tt (put h n (upd cells i v)).
Proof.
  intros Hn Hi. unfold st, store, put. cbn [p_buffer p_offset]. rewrite nth_upd by exact Hn. cbn [b_type b_cells dtype_eqb].
  rewrite (proj2 (Z.leb_le _ _)) by lia. rewrite (proj2 (Z.ltb_lt _ _)) by lia. cbn [andb]. rewrite upd_upd. repeat f_equal. lia.
Qed.
Lemma ld_put h n cells i : (n < length h)%nat -> (i < length cells)%nat -> ld (mkptr n 0) i (put h n cells) = Done (nth i cells 0) (put h n cells).
Proof.
  intros Hn Hi. unfold ld. rewrite (load_in _ _ _ (mkbuffer Float64 cells)); [cbn [p_offset b_cells]; repeat f_equal; lia|apply nth_upd; exact Hn|reflexivity|cbn; lia].
Qed.
Lemma put_array h0 h n s cells : length h0 = n -> (n < length h)%nat -> length cells = size s -> is_array (put h n cells) (MemFacts.fresh h0 s Float64) s cells.
Proof.
  intros E Hn L. unfold is_array. assert (B : nth_error (put h n cells) n = Some (mkbuffer Float64 cells)) by (apply nth_upd; exact Hn).
  split; [|split; [reflexivity|split; [reflexivity|]]].
  - split; [apply c_strides_length|]. exists (mkbuffer Float64 cells). cbn [MemFacts.fresh nd_base p_buffer nd_dtype nd_shape]. rewrite E. split; [exact B|]. split; [reflexivity|].
    intros idx I. apply In_nth with (d := []) in I. destruct I as (m & Hm & <-). rewrite indices_length in Hm.
    unfold address. cbn [MemFacts.fresh nd_base p_offset nd_strides b_cells]. rewrite dot_contiguous by (auto; apply c_strides_contiguous). lia.
  - apply nth_ext with (d := 0%R) (d' := 0%R); [now rewrite contents_length|]. intros m Hm. rewrite contents_length in Hm. cbn [MemFacts.fresh nd_shape] in Hm.
    rewrite nth_contents by exact Hm. unfold item, address. cbn [MemFacts.fresh nd_base p_buffer p_offset nd_strides nd_shape]. rewrite E, B. cbn [b_cells].
    rewrite dot_contiguous by (auto; apply c_strides_contiguous). f_equal. lia.
Qed.
Lemma st3_put h n cells v : (n < length h)%nat -> length cells = 3%nat -> st3 (mkptr n 0) v (put h n cells) = Done tt (put h n [vx v; vy v; vz v]).
Proof.
  intros Hn L. destruct cells as [|a [|b [|c [|d cells]]]]; cbn in L; try discriminate. unfold st3, bnd.
  rewrite st_put by (auto; cbn; lia). rewrite st_put by (auto; cbn; lia). rewrite st_put by (auto; cbn; lia). reflexivity.
Qed.
Lemma st3_new h n v : nth_error h n = Some (mkbuffer Float64 [0; 0; 0]) -> st3 (mkptr n 0) v h = Done tt (put h n [vx v; vy v; vz v]).
Proof.
  intros E. assert (n < length h)%nat by (apply nth_error_Some; congruence). rewrite <- (st3_put h n [0; 0; 0] v) by (auto). now rewrite (put_same h n [0; 0; 0]) by exact E.
Qed.
(** reads of an argument that was converted *)
Lemma at_same h0 a h p cells : block h p Float64 cells -> cells = contents h0 a -> at_ h0 a h p.
Proof. intros B ->. exact B. Qed.
