(** The constructors of charges and tracers, and the bounds of fields. *)
From Coq Require Import Reals Lra.
From Verif Require Import Base BaseFacts Vec GeomModel MemModel FieldModel SeriesModel Axial3DModel DispatchModel TracingModel MemFacts BackendModel BackendSafe BackendValues BackendCalls BackendReturns BackendTables BackendBuffers BackendSeries BackendSeries3D TraceMemModel TraceMemSpec TraceMemFacts TraceMemBlocks TraceMemFields TraceMemCalls TraceMemErrors.
From Verif Require Import TracingMore.
Local Open Scope R_scope.
Local Open Scope mem_scope.

(** ** Memory that grows *)
Lemma floats_extends h h' a s : extends h h' -> floats h a s -> floats h' a s.
Proof. intros E (A & S & T). split; [eapply extends_array; eassumption|now split]. Qed.
Lemma eff_extends h h' Q D e : extends h h' -> eff_ok h Q D e -> eff_ok h' Q D e.
Proof. intros E (N & A & B & C). exists N. split; [|split]; eapply floats_extends; eassumption. Qed.
Lemma box_extends h h' a b : extends h h' -> box_at h a b -> box_at h' a b.
Proof. intros E [F C]. split; [eapply floats_extends; eassumption|]. rewrite (extends_contents _ _ _ E (proj1 F)). exact C. Qed.
Lemma vec_extends h h' a v : extends h h' -> vector_at h a v -> vector_at h' a v.
Proof. intros E (A & S & C). split; [eapply extends_array; eassumption|]. split; [exact S|]. rewrite (extends_contents _ _ _ E A). exact C. Qed.
Lemma line_extends h h' Q D e : extends h h' -> eff_ok h Q D e -> line_eff h' e = line_eff h e.
Proof.
  intros (x & ->) (N & (A & _) & (B & _) & (C & _)). unfold line_eff, line_charges. f_equal. apply map_ext. intros i. rewrite (item_app h _ (e_charges e)) by assumption. f_equal. apply map_ext. intros k. now rewrite !item_app.
Qed.
Lemma triangle_extends h h' Q D e : extends h h' -> eff_ok h Q D e -> triangle_eff h' e = triangle_eff h e.
Proof.
  intros (x & ->) (N & (A & _) & (B & _) & (C & _)). unfold triangle_eff, triangle_charges. f_equal. apply map_ext. intros i. rewrite (item_app h _ (e_charges e)) by assumption. f_equal. apply map_ext. intros k. now rewrite !item_app.
Qed.
Lemma outcome_bnd h {A} (m : M A) k a h' r : m h = Done a h' -> extends h h' -> outcome_of h' (k a) r -> outcome_of h (bnd m k) r.
Proof.
  intros R E. destruct r as [s|e]; cbn [outcome_of].
  - intros (T & P & h'' & R' & E' & Tr). exists T, P, h''. rewrite (bnd_done _ _ _ _ _ R). split; [exact R'|]. split; [exact (extends_trans _ _ _ E E')|exact Tr].
  - intros R'. now rewrite (bnd_done _ _ _ _ _ R).
Qed.
(** ** Copies *)
Lemma same_items h h' a a' s idx : nd_shape a = s -> nd_shape a' = s -> contents h' a' = contents h a -> In idx (indices s) -> item h' a' idx = item h a idx.
Proof.
  unfold contents. intros -> ->. induction (indices s) as [|i l IH]; [easy|]. cbn. intros [= E F] [<-|I]; [exact E|now apply IH].
Qed.
Lemma in_indices1 N i : (i < N)%nat -> In [i] (indices [N]).
Proof. intros H. cbn [indices]. apply in_flat_map. exists i. split; [now apply in_arange|now left]. Qed.
Lemma in_indices_cons N s i idx : (i < N)%nat -> In idx (indices s) -> In (i :: idx) (indices (N :: s)).
Proof. intros H I. cbn [indices]. apply in_flat_map. exists i. split; [now apply in_arange|now apply in_map]. Qed.
Lemma astype_eq a h : astype_float a h = Done (MemFacts.fresh h (nd_shape a) Float64) (h ++ [mkbuffer Float64 (contents h a)]).
Proof. reflexivity. Qed.
Lemma astype_floats a h : floats (h ++ [mkbuffer Float64 (contents h a)]) (MemFacts.fresh h (nd_shape a) Float64) (nd_shape a).
Proof. split; [apply fresh_ok, contents_length|]. split; reflexivity. Qed.
Lemma astype_contents a h : contents (h ++ [mkbuffer Float64 (contents h a)]) (MemFacts.fresh h (nd_shape a) Float64) = contents h a.
Proof. apply fresh_contents, contents_length. Qed.
(** a tracer *)
Lemma tracer_bounds h a b : array_ok h a -> nd_shape a = [3%nat; 2%nat] -> contents h a = box_cells b ->
  exists tb h', new_tracer_bounds a h = Done tb h' /\ extends h h' /\ box_at h' tb b.
Proof.
  intros A S C. unfold new_tracer_bounds. rewrite (bnd_done _ _ _ _ _ (astype_eq a h)). set (a' := MemFacts.fresh h (nd_shape a) Float64). set (h' := h ++ _).
  assert (F : floats h' a' [3%nat; 2%nat]) by (rewrite <- S; apply astype_floats). assert (C' : contents h' a' = box_cells b) by (rewrite <- C; apply astype_contents).
  unfold has_shape. rewrite (proj1 (proj2 F)). erewrite bnd_done by reflexivity. exists a', h'. split; [reflexivity|]. split; [apply extends_new|]. now split.
Qed.
(** effective point charges *)
Lemma new_eff_ok h q j x N Q D : array_ok h q -> array_ok h j -> array_ok h x -> nd_shape q = [N] -> nd_shape j = [N; Q] -> nd_shape x = [N; Q; D] -> D = 2%nat \/ D = 3%nat ->
  exists e h', new_eff q j x h = Done e h' /\ extends h h' /\ eff_ok h' Q D e /\ contents h' (e_charges e) = contents h q /\ contents h' (e_jacobians e) = contents h j /\ contents h' (e_positions e) = contents h x /\
    nd_shape (e_charges e) = [N] /\ nd_shape (e_jacobians e) = [N; Q] /\ nd_shape (e_positions e) = [N; Q; D].
Proof.
  intros Aq Aj Ax Sq Sj Sx HD. unfold new_eff. rewrite (bnd_done _ _ _ _ _ (astype_eq q h)). set (h1 := h ++ _). assert (E1 : extends h h1) by apply extends_new.
  rewrite (bnd_done _ _ _ _ _ (astype_eq j h1)). set (h2 := h1 ++ _). assert (E2 : extends h1 h2) by apply extends_new. rewrite (bnd_done _ _ _ _ _ (astype_eq x h2)). set (h3 := h2 ++ _). assert (E3 : extends h2 h3) by apply extends_new.
  assert (E13 : extends h1 h3) by exact (extends_trans _ _ _ E2 E3).
  set (q' := MemFacts.fresh h (nd_shape q) Float64). set (j' := MemFacts.fresh h1 (nd_shape j) Float64). set (x' := MemFacts.fresh h2 (nd_shape x) Float64).
  assert (Fq : floats h3 q' [N]) by (rewrite <- Sq; apply (floats_extends h1); [exact E13|apply astype_floats]).
  assert (Fj : floats h3 j' [N; Q]) by (rewrite <- Sj; apply (floats_extends h2); [exact E3|apply astype_floats]).
  assert (Fx : floats h3 x' [N; Q; D]) by (rewrite <- Sx; apply astype_floats).
  assert (Cq : contents h3 q' = contents h q) by (rewrite (extends_contents h1 h3 q' E13 (proj1 (astype_floats q h))); apply astype_contents).
  assert (Cj : contents h3 j' = contents h j) by (rewrite (extends_contents h2 h3 j' E3 (proj1 (astype_floats j h1))); unfold j', h2; rewrite astype_contents; apply (extends_contents _ _ _ E1 Aj)).
  assert (Cx : contents h3 x' = contents h x) by (unfold x', h3; rewrite astype_contents; apply (extends_contents _ _ _ (extends_trans _ _ _ E1 E2) Ax)).
  destruct Fq as (Aq' & Sq' & Tq'). destruct Fj as (Aj' & Sj' & Tj'). destruct Fx as (Ax' & Sx' & Tx').
  unfold py_len. rewrite Sq'. erewrite bnd_done by reflexivity. rewrite Sj'. unfold has_shape. rewrite Sq', Sj', Sx'. cbn [shape_eqb]. rewrite !Nat.eqb_refl. cbn [andb]. erewrite bnd_done by reflexivity.
  assert (HD' : (D =? 3)%nat && true || (D =? 2)%nat && true = true) by (destruct HD as [-> | ->]; reflexivity). rewrite HD'. erewrite bnd_done by reflexivity.
  exists (mkeff q' j' x'), h3. split; [reflexivity|]. split; [exact (extends_trans _ _ _ E1 E13)|]. split; [exists N; repeat split; try apply Aq'; try apply Aj'; try apply Ax'; assumption|]. repeat split; assumption.
Qed.
Lemma same_line h h' q j x e N : nd_shape q = [N] -> nd_shape j = [N; 16%nat] -> nd_shape x = [N; 16%nat; 2%nat] -> nd_shape (e_charges e) = [N] -> nd_shape (e_jacobians e) = [N; 16%nat] -> nd_shape (e_positions e) = [N; 16%nat; 2%nat] ->
  contents h' (e_charges e) = contents h q -> contents h' (e_jacobians e) = contents h j -> contents h' (e_positions e) = contents h x -> line_eff h' e = line_charges h q j x.
Proof.
  intros Sq Sj Sx Sq' Sj' Sx' Cq Cj Cx. unfold line_eff, line_charges. rewrite Sq, Sq'. cbn [hd]. f_equal. apply map_ext_in. intros i Hi. apply in_arange in Hi.
  rewrite (same_items h h' q _ _ [i] Sq Sq' Cq) by now apply in_indices1. f_equal. apply map_ext_in. intros k Hk. apply in_arange in Hk.
  rewrite (same_items h h' j _ _ [i; k] Sj Sj' Cj) by (apply in_indices_cons; [exact Hi|now apply in_indices1]).
  rewrite !(same_items h h' x _ _ [i; k; _] Sx Sx' Cx) by (apply in_indices_cons; [exact Hi|apply in_indices_cons; [exact Hk|apply in_indices1; lia]]). reflexivity.
Qed.
Lemma same_triangle h h' q j x e N : nd_shape q = [N] -> nd_shape j = [N; 12%nat] -> nd_shape x = [N; 12%nat; 3%nat] -> nd_shape (e_charges e) = [N] -> nd_shape (e_jacobians e) = [N; 12%nat] -> nd_shape (e_positions e) = [N; 12%nat; 3%nat] ->
  contents h' (e_charges e) = contents h q -> contents h' (e_jacobians e) = contents h j -> contents h' (e_positions e) = contents h x -> triangle_eff h' e = triangle_charges h q j x.
Proof.
  intros Sq Sj Sx Sq' Sj' Sx' Cq Cj Cx. unfold triangle_eff, triangle_charges. rewrite Sq, Sq'. cbn [hd]. f_equal. apply map_ext_in. intros i Hi. apply in_arange in Hi.
  rewrite (same_items h h' q _ _ [i] Sq Sq' Cq) by now apply in_indices1. f_equal. apply map_ext_in. intros k Hk. apply in_arange in Hk.
  rewrite (same_items h h' j _ _ [i; k] Sj Sj' Cj) by (apply in_indices_cons; [exact Hi|now apply in_indices1]).
  rewrite !(same_items h h' x _ _ [i; k; _] Sx Sx' Cx) by (apply in_indices_cons; [exact Hi|apply in_indices_cons; [exact Hk|apply in_indices1; lia]]). reflexivity.
Qed.
(** ** set_bounds *)
Lemma set_bounds_rows h a s t b : floats h a [3%nat; 2%nat] -> nd_strides a = [s; t] -> (Z.abs t <= Z.abs s)%Z -> contents h a = bounds_cells b ->
  exists fb h', set_bounds a h = Done (Some fb) h' /\ extends h h' /\ bounds_given h' (Some fb) (Some b).
Proof.
  intros (A & S & T) St L C. unfold set_bounds, np_array2. rewrite S, St. destruct (Z.ltb_spec (Z.abs s) (Z.abs t)); [lia|]. erewrite bnd_done by (cbv beta; rewrite C, T; reflexivity). erewrite bnd_done by reflexivity. eexists _, _. split; [reflexivity|]. split; [apply extends_new|]. cbn [bounds_given].
  destruct b as [lo hi]. split; [|split; [reflexivity|]].
  - split; [|split; reflexivity]. now apply (fresh_ok h [3%nat; 2%nat] Float64).
  - now apply (fresh_contents h [3%nat; 2%nat] Float64).
Qed.
(** The items of an array of bounds that is stored column by column. *)
Lemma set_bounds_columns h a s t lo hi : floats h a [3%nat; 2%nat] -> nd_strides a = [s; t] -> (Z.abs s < Z.abs t)%Z -> contents h a = bounds_cells (lo, hi) ->
  exists fb h', set_bounds a h = Done (Some fb) h' /\ extends h h' /\ bounds_at h' (low h') (data_as_double (Some fb)) (Some (V3 (vx lo) (vz lo) (vy hi), V3 (vy lo) (vx hi) (vz hi))).
Proof.
  intros (A & S & T) St L C. unfold set_bounds, np_array2. rewrite S, St. destruct (Z.ltb_spec (Z.abs s) (Z.abs t)); [|lia].
  unfold copy_by_columns. erewrite bnd_done by reflexivity. erewrite bnd_done by reflexivity. eexists _, _. split; [reflexivity|]. split; [apply extends_new|]. cbn [data_as_double option_map nd_base bounds_at].
  unfold contents in C. rewrite S in C. cbn in C. injection C as C0 C1 C2 C3 C4 C5.
  split; [|unfold low; rewrite app_length; cbn; lia]. rewrite T. cbn [arange seq map flat_map app]. unfold arange. cbn [seq map flat_map app]. rewrite C0, C1, C2, C3, C4, C5.
  intros i Hi. unfold load. cbn [p_buffer p_offset]. rewrite nth_error_app2 by lia. rewrite Nat.sub_diag. cbn [nth_error b_type dtype_eqb b_cells]. cbn [bounds_cells length vx vy vz] in *.
  do 6 (destruct i as [|i]; [reflexivity|]). lia.
Qed.
(** ** Bounds of integers *)
Lemma bnd_fault {A B} (m : M A) (f : A -> M B) h : m h = Fault -> bnd m f h = Fault.
Proof. intros E. unfold bnd. now rewrite E. Qed.
Lemma set_bounds_integers h a : array_ok h a -> nd_shape a = [3%nat; 2%nat] -> nd_dtype a = Int64 ->
  exists fb h', set_bounds a h = Done (Some fb) h' /\ extends h h' /\ p_buffer (nd_base fb) = length h /\ exists cells, nth_error h' (length h) = Some (mkbuffer Int64 cells).
Proof.
  intros (L & A) S T. rewrite S in L. destruct (nd_strides a) as [|s [|t [|]]] eqn:St; try discriminate. unfold set_bounds, np_array2. rewrite S, St.
  assert (N : forall b, nth_error (h ++ [b]) (length h) = Some b) by (intros b; rewrite nth_error_app2, Nat.sub_diag by lia; reflexivity).
  destruct (Z.abs s <? Z.abs t)%Z.
  - unfold copy_by_columns. rewrite T. erewrite bnd_done by reflexivity. erewrite bnd_done by reflexivity. eexists _, _. split; [reflexivity|]. split; [apply extends_new|]. split; [reflexivity|]. eexists. apply N.
  - erewrite bnd_done by (cbv beta; rewrite T; reflexivity). erewrite bnd_done by reflexivity. eexists _, _. split; [reflexivity|]. split; [apply extends_new|]. split; [reflexivity|]. eexists. apply N.
Qed.
Section Fault.
Variables (h : heap) (fuel inner blk : nat) (tb position velocity : ndarray) (bounds : box) (x w : vec3) (atol : R).
Hypothesis Hblk : (2 <= blk)%nat.
Hypothesis Hb : box_at h tb bounds.
Hypothesis Hx : vector_at h position x.
Hypothesis Hw : vector_at h velocity w.
Hypothesis Hin : within bounds x = true.
Lemma wrapper_faults hB vel v f : extends h hB -> vector_at hB vel v -> norm v <> 0 -> (forall hh p r, extends hB hh -> f p r hh = Fault) ->
  trace_particle_wrapper_py (S fuel) blk position vel (fun T P => pass_blocks blk T P tb (fun t p b => c_trace_particle (S inner) blk t p f b atol)) hB = Fault.
Proof.
  intros E (Av & Sv & Cv) Nv Hf. destruct (vec_extends _ _ _ _ E Hx) as (Ap & Sp & Cp). unfold trace_particle_wrapper_py. unfold has_shape. rewrite Sp, Sv. change (shape_eqb [3%nat] [3%nat]) with true. cbn [andb assertM].
  destruct (new_block hB blk Hblk hB 0 (mkstate x v) (extends_refl _)) as (Z1 & Z2 & SR & _ & X2 & _ & _ & Ho & _ & L3 & X3). cbv zeta in *. set (h2 := (hB ++ _) ++ _) in *. set (h3 := put h2 _ _) in *.
  erewrite bnd_done by reflexivity. rewrite (bnd_done _ _ _ _ _ Z1), (bnd_done _ _ _ _ _ Z2).
  erewrite bnd_done by (cbv beta; rewrite (extends_contents _ _ _ X2 Ap), (extends_contents _ _ _ X2 Av), Cp, Cv; reflexivity).
  change ([vx x; vy x; vz x] ++ [vx v; vy v; vz v]) with (vals (mkstate x v)). rewrite (bnd_done _ _ _ _ _ SR). apply bnd_fault. cbn [trace_blocks_py]. apply bnd_fault.
  destruct Hb as [(Ab & Sb & Tb) Cb]. unfold pass_blocks. rewrite (bnd_done _ _ _ _ _ (pass_view [blk] (length hB) h3)), (bnd_done _ _ _ _ _ (pass_view [blk; 6%nat] (S (length hB)) h3)).
  destruct (wp_get h3 (pass (ByShape [3%nat; 2%nat] Float64) tb) (fun p h' => extends h3 h' /\ block h' p Float64 (contents h tb))) as (b & h4 & R & E4 & Bb).
  { apply (wp_pass h h3 _ tb Float64); [exact Ab|exact (extends_trans _ _ _ E X3)|unfold accepts, has_shape; rewrite Sb, Tb; reflexivity|exact Tb|]. intros p h1 E1 B1 _. apply wp_ret. split; assumption. }
  rewrite (bnd_done _ _ _ _ _ R). rewrite Cb in Bb. pose proof (extends_length _ _ E4) as L4. unfold c_trace_particle.
  assert (Ho4 : holds h4 (length hB) (S (length hB)) blk [(0, mkstate x v)]) by (eapply holds_extends; [exact Ho|exact E4]).
  rewrite (bnd_done _ _ _ _ _ (ld_state_cells h4 (length hB) (S (length hB)) blk ltac:(lia) ltac:(lia) ltac:(lia) h4 0 (mkstate x v) Ho4 ltac:(lia))).
  assert (L : forall i, (i < 6)%nat -> ld b i h4 = Done (nth i (box_cells bounds) 0) h4) by (intros i Hi; apply Bb; exact Hi).
  rewrite (bnd_done _ _ _ _ _ (L 0%nat ltac:(lia))), (bnd_done _ _ _ _ _ (L 1%nat ltac:(lia))), (bnd_done _ _ _ _ _ (L 2%nat ltac:(lia))), (bnd_done _ _ _ _ _ (L 3%nat ltac:(lia))), (bnd_done _ _ _ _ _ (L 4%nat ltac:(lia))), (bnd_done _ _ _ _ _ (L 5%nat ltac:(lia))).
  cbn [box_cells nth s_vel]. destruct (Req_EM_T (norm v) 0); [contradiction|]. cbn [c_trace_loop s_pos].
  replace (mkbox _ _) with bounds by (destruct bounds as [[? ? ?] [? ? ?]]; reflexivity). rewrite Hin. apply bnd_fault. cbn [c_stages]. apply bnd_fault. unfold c_produce_new_k, local.
  erewrite bnd_done by reflexivity. erewrite bnd_done by reflexivity. apply bnd_fault. apply Hf.
  exact (extends_trans _ _ _ X3 (extends_trans _ _ _ E4 (extends_trans _ _ _ (extends_new _ _) (extends_new _ _)))).
Qed.
Lemma radial_bem_faults elec mag cur fb cells : eff_ok h 16 2 elec -> eff_ok h 16 2 mag -> eff_ok h 12 3 cur -> nth_error h (p_buffer (nd_base fb)) = Some (mkbuffer Int64 cells) -> w <> vzero ->
  tracer_radial_bem (S fuel) (S inner) blk elec mag cur (Some fb) tb position velocity atol h = Fault.
Proof.
  intros Oe Om Oc Hfb Nw. destruct (convert_velocity_to_SI w) as [v|e] eqn:Ev.
  2:{ unfold convert_velocity_to_SI in Ev. destruct (Req_EM_T (norm w) 0) as [Z|]; [|discriminate]. apply norm_zero in Z. contradiction. }
  destruct (converted h blk v Hblk w velocity h (extends_refl h) Hw Ev) as (vel & R & Hvel). unfold tracer_radial_bem. rewrite (bnd_done _ _ _ _ _ R). set (h1 := h ++ _) in *. assert (E1 : extends h h1) by apply extends_new.
  unfold trace_particle_radial_py.
  destruct (wp_get h1 (new_struct N_QUAD_2D elec) (fun s h' => extends h1 h')) as (es & h2 & R2 & E2). { apply (wp_struct h h1 _ 2); [exact Oe|exact E1|]. intros. apply wp_ret. assumption. }
  rewrite (bnd_done _ _ _ _ _ R2). assert (E02 : extends h h2) by exact (extends_trans _ _ _ E1 E2).
  destruct (wp_get h2 (new_struct N_QUAD_2D mag) (fun s h' => extends h2 h')) as (ms & h3 & R3 & E3). { apply (wp_struct h h2 _ 2); [exact Om|exact E02|]. intros. apply wp_ret. assumption. }
  rewrite (bnd_done _ _ _ _ _ R3). assert (E03 : extends h h3) by exact (extends_trans _ _ _ E02 E3).
  destruct (wp_get h3 (new_struct N_TRIANGLE_QUAD cur) (fun s h' => extends h3 h')) as (cs & h4 & R4 & E4). { apply (wp_struct h h3 _ 3); [exact Oc|exact E03|]. intros. apply wp_ret. assumption. }
  rewrite (bnd_done _ _ _ _ _ R4). assert (E04 : extends h h4) by exact (extends_trans _ _ _ E03 E4).
  apply (wrapper_faults h4 vel v _ E04).
  - eapply vec_extends; [|exact Hvel]. exact (extends_trans _ _ _ E2 (extends_trans _ _ _ E3 E4)).
  - destruct (velocity_SI _ _ Ev) as (_ & _ & k & Hk & ->). rewrite norm_scale. apply Rmult_integral_contrapositive_currified; [rewrite Rabs_pos_eq; lra|]. intros Z. apply norm_zero in Z. contradiction.
  - intros hh p r Eh. unfold c_field_radial_traceable. apply bnd_fault. cbn [data_as_double option_map c_inside c_inside_from]. apply bnd_fault. unfold ld, load. rewrite (extends_nth _ _ _ _ (extends_trans _ _ _ E04 Eh) Hfb). reflexivity.
Qed.
End Fault.
