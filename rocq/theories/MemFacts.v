(** Facts about MemModel: arrays passed to C, and freedom from faults. *)
From Coq Require Import Reals.
From Verif Require Import Base MemModel.
Local Open Scope Z_scope.

Lemma dtype_eqb_eq a b : dtype_eqb a b = true <-> a = b.
Proof. destruct a, b; cbn; split; congruence. Qed.
Lemma dtype_eqb_refl a : dtype_eqb a a = true.
Proof. destruct a; reflexivity. Qed.
Lemma shape_eqb_eq a b : shape_eqb a b = true <-> a = b.
Proof.
  revert b; induction a as [|x a IH]; intros [|y b]; cbn; try (split; congruence).
  rewrite andb_true_iff, IH, Nat.eqb_eq; split; [intros [-> ->]|intros [= -> ->]]; auto.
Qed.

(** ** Enumeration of indices *)
Lemma flat_map_length_const {A B} (f : A -> list B) L l : (forall x, length (f x) = L) -> length (flat_map f l) = (length l * L)%nat.
Proof. intros H; induction l as [|x l IH]; cbn; [reflexivity|]. now rewrite app_length, H, IH. Qed.
Lemma nth_flat_map_const {A B} (f : A -> list B) L l n d dl : (forall x, length (f x) = L) -> (n < length l * L)%nat ->
  nth n (flat_map f l) d = nth (n mod L) (f (nth (n / L) l dl)) d.
Proof.
  intros H. revert n. induction l as [|x l IH]; intros n Hn; cbn in Hn; [lia|].
  assert (L <> 0)%nat by nia.
  cbn [flat_map]. destruct (Nat.ltb_spec n L) as [Lt|Ge].
  - rewrite app_nth1 by (rewrite H; lia). rewrite Nat.mod_small, Nat.div_small by lia. reflexivity.
  - rewrite app_nth2 by (rewrite H; lia). rewrite H, IH by lia.
    replace n with (n - L + 1 * L)%nat at 3 4 by lia. rewrite Nat.mod_add, Nat.div_add by lia.
    replace ((n - L) / L + 1)%nat with (S ((n - L) / L)) by lia. reflexivity.
Qed.
Lemma indices_length s : length (indices s) = size s.
Proof.
  induction s as [|d s IH]; [reflexivity|]. cbn [indices].
  rewrite (flat_map_length_const _ (size s)) by (intros; now rewrite map_length).
  unfold arange; rewrite seq_length. reflexivity.
Qed.
Lemma contents_length h a : length (contents h a) = size (nd_shape a).
Proof. unfold contents. now rewrite map_length, indices_length. Qed.
Lemma nth_indices d s n : (n < size (d :: s))%nat -> nth n (indices (d :: s)) [] = (n / size s)%nat :: nth (n mod size s) (indices s) [].
Proof.
  intros H. cbn [indices size fold_right] in *. fold (size s) in H.
  assert (size s <> 0)%nat by (intros E; rewrite E in H; lia).
  rewrite (nth_flat_map_const _ (size s) _ _ _ 0%nat).
  - unfold arange. rewrite seq_nth by (apply Nat.div_lt_upper_bound; lia).
    rewrite Nat.add_0_l. rewrite nth_indep with (d' := cons (n / size s)%nat []).
    + now rewrite map_nth.
    + rewrite map_length, indices_length. now apply Nat.mod_upper_bound.
  - intros; rewrite map_length; apply indices_length.
  - unfold arange; rewrite seq_length. exact H.
Qed.
Lemma dot_contiguous s : forall ss n, c_contiguous s ss = true -> (n < size s)%nat -> dot ss (nth n (indices s) []) = Z.of_nat n.
Proof.
  induction s as [|d s IH]; intros [|k ss] n Hc Hn; cbn [c_contiguous] in Hc; try discriminate.
  - cbn in *. replace n with 0%nat by lia. reflexivity.
  - apply andb_true_iff in Hc. destruct Hc as [Hc Hk]. rewrite nth_indices by exact Hn.
    cbn [size fold_right] in Hn. fold (size s) in Hn.
    assert (size s <> 0)%nat by (intros E; rewrite E in Hn; lia).
    cbn [dot]. rewrite IH by (auto; now apply Nat.mod_upper_bound).
    pose proof (Nat.div_mod n (size s) H) as E.
    apply orb_true_iff in Hk. destruct Hk as [Hk|Hk].
    + apply Nat.eqb_eq in Hk. subst d. assert (n / size s = 0)%nat as -> by (apply Nat.div_small; lia).
      rewrite Nat.mod_small by lia. lia.
    + apply Z.eqb_eq in Hk. subst k. rewrite <- Nat2Z.inj_mul, <- Nat2Z.inj_add. f_equal. lia.
Qed.
Lemma c_strides_contiguous s : c_contiguous s (c_strides s) = true.
Proof. induction s; cbn; [reflexivity|]. rewrite IHs, Z.eqb_refl, orb_true_r. reflexivity. Qed.
Lemma c_strides_length s : length (c_strides s) = length s.
Proof. induction s; cbn; congruence. Qed.

(** ** Arrays in growing memory *)
Definition block (h : heap) (p : ptr) (t : dtype) (cells : list R) : Prop :=
  forall n, (n < length cells)%nat -> load t p (Z.of_nat n) h = Done (nth n cells 0%R) h.

Lemma load_app t p i h e x : load t p i h = Done x h -> load t p i (h ++ e) = Done x (h ++ e).
Proof.
  unfold load. destruct (nth_error h (p_buffer p)) as [b|] eqn:E; [|discriminate].
  rewrite nth_error_app1 by (apply nth_error_Some; congruence). rewrite E.
  destruct (_ && _); [|discriminate]. destruct (nth_error (b_cells b) (Z.to_nat (p_offset p + i))); [|discriminate]. now intros [= ->].
Qed.
Lemma block_app h e p t cells : block h p t cells -> block (h ++ e) p t cells.
Proof. intros H n Hn. apply load_app, H, Hn. Qed.
Lemma array_ok_app h e a : array_ok h a -> array_ok (h ++ e) a.
Proof.
  intros (L & b & Hb & R). split; [exact L|]. exists b. rewrite nth_error_app1 by (apply nth_error_Some; congruence). tauto.
Qed.
Lemma item_app h e a idx : array_ok h a -> item (h ++ e) a idx = item h a idx.
Proof.
  intros (L & b & Hb & R). unfold item. rewrite nth_error_app1 by (apply nth_error_Some; congruence). reflexivity.
Qed.
Lemma contents_app h e a : array_ok h a -> contents (h ++ e) a = contents h a.
Proof. intros H. unfold contents. apply map_ext. intros idx. now apply item_app. Qed.

Lemma load_in h p t b i : nth_error h (p_buffer p) = Some b -> b_type b = t -> 0 <= p_offset p + i < Z.of_nat (length (b_cells b)) ->
  load t p i h = Done (nth (Z.to_nat (p_offset p + i)) (b_cells b) 0%R) h.
Proof.
  intros Hb Ht H. unfold load. rewrite Hb, Ht, dtype_eqb_refl. rewrite (proj2 (Z.leb_le _ _)) by lia. cbn [andb].
  rewrite nth_error_nth' with (d := 0%R) by lia. reflexivity.
Qed.
(** a contiguous array is the block of its items *)
Lemma contiguous_block h a : array_ok h a -> is_contiguous a = true -> block h (nd_base a) (nd_dtype a) (contents h a).
Proof.
  intros (L & b & Hb & Ht & R) Hc n Hn. rewrite contents_length in Hn.
  unfold is_contiguous in Hc. destruct (Nat.eqb_spec (size (nd_shape a)) 0) as [E|E]; [lia|]. cbn in Hc.
  assert (I : In (nth n (indices (nd_shape a)) []) (indices (nd_shape a))) by (apply nth_In; now rewrite indices_length).
  assert (A : address a (nth n (indices (nd_shape a)) []) = p_offset (nd_base a) + Z.of_nat n).
  { unfold address. now rewrite dot_contiguous. }
  pose proof (R _ I) as B. rewrite A in B.
  rewrite (load_in h _ _ b) by assumption. f_equal.
  unfold contents. rewrite (nth_indep (map (item h a) (indices (nd_shape a))) 0%R (item h a [])) by (rewrite map_length, indices_length; exact Hn).
  rewrite map_nth. unfold item. rewrite Hb, A. reflexivity.
Qed.

Definition fresh (h : heap) (s : list nat) (t : dtype) : ndarray := mkarray (mkptr (length h) 0) s (c_strides s) t.
Lemma fresh_ok h s t cells : length cells = size s -> array_ok (h ++ [mkbuffer t cells]) (fresh h s t).
Proof.
  intros E. split; [apply c_strides_length|]. exists (mkbuffer t cells). cbn [fresh nd_base p_buffer nd_dtype nd_shape].
  rewrite nth_error_app2, Nat.sub_diag by lia. split; [reflexivity|]. split; [reflexivity|].
  intros idx I. apply In_nth with (d := []) in I. destruct I as (n & Hn & <-). rewrite indices_length in Hn.
  unfold address. cbn [fresh nd_base p_offset nd_strides b_cells]. rewrite dot_contiguous by (auto; apply c_strides_contiguous). lia.
Qed.
Lemma fresh_contents h s t cells : length cells = size s -> contents (h ++ [mkbuffer t cells]) (fresh h s t) = cells.
Proof.
  intros E. apply nth_ext with (d := 0%R) (d' := 0%R); [now rewrite contents_length|].
  intros n Hn. rewrite contents_length in Hn. cbn [fresh nd_shape] in Hn.
  unfold contents. cbn [fresh nd_shape]. rewrite nth_indep with (d' := item (h ++ [mkbuffer t cells]) (fresh h s t) [])
    by (rewrite map_length, indices_length; exact Hn).
  rewrite map_nth. unfold item, address. cbn [fresh nd_base p_buffer p_offset nd_strides].
  rewrite nth_error_app2, Nat.sub_diag by lia. cbn [nth_error b_cells].
  rewrite dot_contiguous by (auto; apply c_strides_contiguous). f_equal. lia.
Qed.
Lemma fresh_contiguous h s t : is_contiguous (fresh h s t) = true.
Proof. unfold is_contiguous. cbn [fresh nd_shape nd_strides]. now rewrite c_strides_contiguous, orb_true_r. Qed.

Lemma new_array_eq s t cells h : new_array s t cells h = Done (fresh h s t) (h ++ [mkbuffer t cells]).
Proof. reflexivity. Qed.
(** what C gets for an array argument *)
Lemma pass_spec h sp a : array_ok h a ->
  exists p e, pass sp a h = (if accepts sp a then Done p (h ++ e) else Raises TypeError) /\ block (h ++ e) p (nd_dtype a) (contents h a).
Proof.
  intros Ha. unfold pass, bnd, ensure_contiguous_aligned. destruct (is_contiguous a) eqn:C.
  - exists (nd_base a), []. rewrite app_nil_r. split; [|now apply contiguous_block]. destruct (accepts sp a); reflexivity.
  - exists (mkptr (length h) 0), [mkbuffer (nd_dtype a) (contents h a)]. rewrite new_array_eq.
    split.
    + replace (accepts sp (fresh h (nd_shape a) (nd_dtype a))) with (accepts sp a) by (destruct sp; reflexivity).
      destruct (accepts sp a); reflexivity.
    + pose proof (contents_length h a) as E.
      pose proof (contiguous_block _ _ (fresh_ok h (nd_shape a) (nd_dtype a) _ E) (fresh_contiguous _ _ _)) as B.
      rewrite (fresh_contents _ _ _ _ E) in B. exact B.
Qed.
(** a new array is passed as it is *)
Lemma pass_fresh h sp s t h' : pass sp (fresh h s t) h' = if accepts sp (fresh h s t) then Done (mkptr (length h) 0) h' else Raises TypeError.
Proof. unfold pass, bnd, ensure_contiguous_aligned. rewrite fresh_contiguous. destruct (accepts _ _); reflexivity. Qed.

(** ** Absence of faults *)
Definition layout (h : heap) : list (dtype * nat) := map (fun b => (b_type b, length (b_cells b))) h.
Definition room (L : list (dtype * nat)) (p : ptr) (t : dtype) (n : nat) : Prop :=
  forall i, 0 <= i < Z.of_nat n -> exists m, nth_error L (p_buffer p) = Some (t, m) /\ 0 <= p_offset p + i < Z.of_nat m.
Lemma layout_app h e : layout (h ++ e) = layout h ++ layout e.
Proof. apply map_app. Qed.
Lemma block_room h p t cells : block h p t cells -> room (layout h) p t (length cells).
Proof.
  intros B i Hi. specialize (B (Z.to_nat i) ltac:(lia)). rewrite Z2Nat.id in B by lia. unfold load in B.
  unfold layout. rewrite nth_error_map. destruct (nth_error h (p_buffer p)) as [b|]; [|discriminate]. cbn [option_map].
  destruct (dtype_eqb t (b_type b)) eqn:T; [|discriminate]. apply dtype_eqb_eq in T. subst t.
  destruct (Z.leb_spec 0 (p_offset p + i)); [|discriminate]. cbn [andb] in B.
  destruct (nth_error (b_cells b) _) eqn:E; [|discriminate].
  exists (length (b_cells b)). split; [reflexivity|]. assert (Z.to_nat (p_offset p + i) < length (b_cells b))%nat by (apply nth_error_Some; congruence). lia.
Qed.
Lemma room_app L e p t n : room L p t n -> room (L ++ e) p t n.
Proof. intros H i Hi. destruct (H i Hi) as (m & A & B). exists m. split; [|exact B]. rewrite nth_error_app1 by (apply nth_error_Some; congruence). exact A. Qed.
Lemma room_le L p t n m : (m <= n)%nat -> room L p t n -> room L p t m.
Proof. intros Le H i Hi. apply H. lia. Qed.
Lemma room_shift L p t n m k : (k + m <= n)%nat -> room L p t n -> room L (shift p k) t m.
Proof. intros Le H i Hi. destruct (H (Z.of_nat k + i) ltac:(lia)) as (x & A & B). exists x. split; [exact A|]. cbn. lia. Qed.

(** a C program that neither faults nor changes the sizes of buffers *)
Definition csafe {A} (L : list (dtype * nat)) (m : M A) : Prop :=
  forall h, layout h = L -> match m h with Done _ h' => layout h' = L | Raises _ | Exits => True | Fault => False end.
Lemma csafe_ret {A} L (a : A) : csafe L (ret a).
Proof. intros h H. exact H. Qed.
Lemma csafe_bnd {A B} L (m : M A) (f : A -> M B) : csafe L m -> (forall a, csafe L (f a)) -> csafe L (bnd m f).
Proof. intros Hm Hf h Hh. unfold bnd. specialize (Hm h Hh). destruct (m h); auto. apply Hf. exact Hm. Qed.
Lemma csafe_exit {A} L : csafe L (@c_exit A).
Proof. intros h H. exact I. Qed.
Lemma csafe_raise {A} L e : csafe L (@raise A e).
Proof. intros h H. exact I. Qed.
Lemma csafe_load L t p i n : room L p t n -> 0 <= i < Z.of_nat n -> csafe L (load t p i).
Proof.
  intros H Hi h E. destruct (H i Hi) as (m & A & B). rewrite <- E in A. unfold layout in A. rewrite nth_error_map in A.
  destruct (nth_error h (p_buffer p)) as [b|] eqn:Hb; [|discriminate]. cbn in A. injection A as Et Em.
  rewrite (load_in h p t b i Hb Et) by lia. exact E.
Qed.
Lemma layout_upd h k b b' : nth_error h k = Some b -> b_type b' = b_type b -> length (b_cells b') = length (b_cells b) -> layout (upd h k b') = layout h.
Proof.
  revert k. induction h as [|x h IH]; intros [|k] Hb Ht Hl; cbn in *; try discriminate.
  - injection Hb as ->. now rewrite Ht, Hl.
  - f_equal. apply IH; assumption.
Qed.
Lemma upd_length {A} (l : list A) i x : length (upd l i x) = length l.
Proof. revert i; induction l; intros [|i]; cbn; congruence. Qed.
Lemma csafe_store L t p i n v : room L p t n -> 0 <= i < Z.of_nat n -> csafe L (store t p i v).
Proof.
  intros H Hi h E. destruct (H i Hi) as (m & A & B). rewrite <- E in A. unfold layout in A. rewrite nth_error_map in A.
  destruct (nth_error h (p_buffer p)) as [b|] eqn:Hb; [|discriminate]. cbn in A. injection A as Et Em.
  unfold store. rewrite Hb, Et, dtype_eqb_refl. rewrite (proj2 (Z.leb_le _ _)) by lia. rewrite (proj2 (Z.ltb_lt _ _)) by lia. cbn [andb].
  rewrite <- E. apply layout_upd with (b := b); [exact Hb| |]; cbn; [congruence|apply upd_length].
Qed.
Lemma csafe_ld L p i n : room L p Float64 n -> (i < n)%nat -> csafe L (ld p i).
Proof. intros H Hi. apply csafe_load with (n := n); [exact H|lia]. Qed.
Lemma csafe_st L p i n v : room L p Float64 n -> (i < n)%nat -> csafe L (st p i v).
Proof. intros H Hi. apply csafe_store with (n := n); [exact H|lia]. Qed.
Lemma csafe_st_add L p i n v : room L p Float64 n -> (i < n)%nat -> csafe L (st_add p i v).
Proof. intros H Hi. apply csafe_bnd; [eapply csafe_ld; eauto|]. intros x. eapply csafe_st; eauto. Qed.
Lemma csafe_loop_from {A} L (body : nat -> A -> M A) n : forall i acc, (forall k a, (i <= k < i + n)%nat -> csafe L (body k a)) -> csafe L (loop_from i n body acc).
Proof.
  induction n as [|n IH]; intros i acc H; cbn [loop_from]; [apply csafe_ret|].
  apply csafe_bnd; [apply H; lia|]. intros a. apply IH. intros k a' Hk. apply H. lia.
Qed.
Lemma csafe_loop {A} L n (acc : A) body : (forall k a, (k < n)%nat -> csafe L (body k a)) -> csafe L (loop n acc body).
Proof. intros H. apply csafe_loop_from. intros. apply H. lia. Qed.
Lemma csafe_for_each L n body : (forall k, (k < n)%nat -> csafe L (body k)) -> csafe L (for_each n body).
Proof. intros H. apply csafe_loop. intros. now apply H. Qed.

(** Python functions *)
Definition nofault {A} (h : heap) (m : M A) : Prop := m h <> Fault.
Definition extends (h h' : heap) : Prop := exists e, h' = h ++ e.
Lemma extends_array h h' a : extends h h' -> array_ok h a -> array_ok h' a.
Proof. intros (e & ->). apply array_ok_app. Qed.
Lemma extends_room h h' p t n : extends h h' -> room (layout h) p t n -> room (layout h') p t n.
Proof. intros (e & ->). rewrite layout_app. apply room_app. Qed.
Lemma nofault_assert {A} h b (k : M A) : (b = true -> nofault h k) -> nofault h (bnd (assertM b) (fun _ => k)).
Proof. intros H. unfold nofault, bnd, assertM. destruct b; cbn; [now apply H|discriminate]. Qed.
Lemma nofault_len {A} h a (k : nat -> M A) : (forall n rest, nd_shape a = n :: rest -> nofault h (k n)) -> nofault h (bnd (py_len a) k).
Proof. intros H. unfold nofault, bnd, py_len. destruct (nd_shape a) as [|n rest] eqn:E; cbn; [discriminate|]. now apply (H n rest). Qed.
Lemma nofault_new {A} h s t cells (k : ndarray -> M A) : length cells = size s ->
  (forall h' a, extends h h' -> array_ok h' a -> nd_shape a = s -> nd_dtype a = t -> nofault h' (k a)) -> nofault h (bnd (new_array s t cells) k).
Proof.
  intros E H. unfold nofault, bnd. rewrite new_array_eq. apply H; [eexists; reflexivity|now apply fresh_ok|reflexivity|reflexivity].
Qed.
Lemma nofault_zeros {A} h s (k : ndarray -> M A) :
  (forall h' a, extends h h' -> array_ok h' a -> nd_shape a = s -> nd_dtype a = Float64 -> nofault h' (k a)) -> nofault h (bnd (np_zeros s) k).
Proof. intros H. apply nofault_new; [apply repeat_length|exact H]. Qed.
Lemma nofault_astype {A} h b (k : ndarray -> M A) :
  (forall h' a, extends h h' -> array_ok h' a -> nd_shape a = nd_shape b -> nd_dtype a = Float64 -> nofault h' (k a)) -> nofault h (bnd (astype_float b) k).
Proof. intros H. apply (nofault_new h (nd_shape b) Float64 (contents h b)); [apply contents_length|exact H]. Qed.
Lemma nofault_pass {A} h sp a (k : ptr -> M A) : array_ok h a ->
  (forall h' p, extends h h' -> accepts sp a = true -> room (layout h') p (nd_dtype a) (size (nd_shape a)) -> nofault h' (k p)) ->
  nofault h (bnd (pass sp a) k).
Proof.
  intros Ha H. unfold nofault, bnd. destruct (pass_spec h sp a Ha) as (p & e & -> & B).
  destruct (accepts sp a) eqn:E; [|discriminate]. apply H; [eexists; reflexivity|reflexivity|].
  rewrite <- (contents_length h a). now apply block_room.
Qed.
Lemma nofault_c {A} h (m : M A) : csafe (layout h) m -> nofault h m.
Proof. intros H. unfold nofault. specialize (H h eq_refl). destruct (m h); [discriminate..|tauto]. Qed.
Lemma nofault_ext {A B} h (m : M A) (k : A -> M B) : csafe (layout h) m -> (forall h' a, layout h' = layout h -> nofault h' (k a)) -> nofault h (bnd m k).
Proof.
  intros H Hk. unfold nofault, bnd. specialize (H h eq_refl). destruct (m h); [|discriminate|discriminate|tauto]. now apply Hk.
Qed.
