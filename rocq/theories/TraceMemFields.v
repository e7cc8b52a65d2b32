(** The four C field functions compute the forces of TracingModel. *)
From Coq Require Import Reals Lra FunctionalExtensionality.
From Verif Require Import Base BaseFacts Vec GeomModel MemModel FieldModel SeriesModel Axial3DModel DispatchModel TracingModel MemFacts BackendModel BackendSafe BackendValues BackendCalls BackendReturns BackendTables BackendBuffers BackendSeries BackendSeries3D TraceMemModel TraceMemSpec TraceMemFacts TraceMemBlocks.
Local Open Scope R_scope.
Local Open Scope mem_scope.

(** ** A point that is not an array *)
Definition with_point (h : heap) (x : vec3) : heap := h ++ [mkbuffer Float64 [vx x; vy x; vz x]].
Definition point_in (h : heap) : ndarray := MemFacts.fresh h [3%nat] Float64.
Lemma with_point_extends h x : extends h (with_point h x). Proof. apply extends_new. Qed.
Lemma point_contents h x : contents (with_point h x) (point_in h) = [vx x; vy x; vz x]. Proof. now apply fresh_contents. Qed.
Lemma point_of_point h x : point_of (with_point h x) (point_in h) = x.
Proof.
  unfold point_of. rewrite <- (nth_contents1 (with_point h x) (point_in h) 3 0), <- (nth_contents1 (with_point h x) (point_in h) 3 1), <- (nth_contents1 (with_point h x) (point_in h) 3 2) by (reflexivity || lia).
  rewrite point_contents. destruct x; reflexivity.
Qed.
Lemma at_point h x hh p cells : block hh p Float64 cells -> firstn 3 cells = [vx x; vy x; vz x] -> at_ (with_point h x) (point_in h) hh p.
Proof.
  intros B F. unfold at_. rewrite point_contents. intros i Hi. cbn [length] in Hi. assert (L : (3 <= length cells)%nat) by (destruct cells as [|a [|b [|c r]]]; try discriminate; cbn; lia).
  rewrite B by lia. rewrite <- F. now rewrite nth_firstn.
Qed.
Lemma at_with h x a hh p : array_ok h a -> at_ h a hh p -> at_ (with_point h x) a hh p.
Proof. intros A B. unfold at_. rewrite (extends_contents _ _ _ (with_point_extends h x) A). exact B. Qed.
Lemma line_charges_with h x q j p : array_ok h q -> array_ok h j -> array_ok h p -> line_charges (with_point h x) q j p = line_charges h q j p.
Proof. intros A B C. unfold line_charges. f_equal. apply map_ext. intros i. unfold with_point. rewrite (item_app h _ q) by assumption. f_equal. apply map_ext. intros k. now rewrite !item_app. Qed.
Lemma triangle_charges_with h x q j p : array_ok h q -> array_ok h j -> array_ok h p -> triangle_charges (with_point h x) q j p = triangle_charges h q j p.
Proof. intros A B C. unfold triangle_charges. f_equal. apply map_ext. intros i. unfold with_point. rewrite (item_app h _ q) by assumption. f_equal. apply map_ext. intros k. now rewrite !item_app. Qed.
Lemma samples_with h x z : array_ok h z -> samples (with_point h x) z = samples h z.
Proof. intros A. unfold samples. apply map_ext. intros i. unfold with_point. now rewrite item_app. Qed.
Lemma table_with h x c : array_ok h c -> table (with_point h x) c = table h c.
Proof. intros A. unfold table. apply map_ext. intros i. apply functional_extensionality. intros k. unfold poly_of, with_point. rewrite !item_app by exact A. reflexivity. Qed.
Lemma table3d_with h x c : array_ok h c -> table3d (with_point h x) c = table3d h c.
Proof. intros A. unfold table3d. apply map_ext. intros i. do 3 (apply functional_extensionality; intro). unfold poly4_of, with_point. rewrite !item_app by exact A. reflexivity. Qed.

(** the structs of charges *)
(** the struct holds pointers to the items of the arrays, in buffers satisfying [K] *)
Definition struct_at (h hh : heap) (K : nat -> Prop) (s : charge_struct) (e : eff_charges) : Prop :=
  at_ h (e_charges e) hh (cs_charges s) /\ at_ h (e_jacobians e) hh (cs_jacobians s) /\ at_ h (e_positions e) hh (cs_positions s) /\ nd_shape (e_charges e) = [cs_N s] /\
  K (p_buffer (cs_charges s)) /\ K (p_buffer (cs_jacobians s)) /\ K (p_buffer (cs_positions s)).
Lemma struct_frame h hh hh' D (K : nat -> Prop) s e : struct_at h hh K s e -> frame D hh hh' -> (forall i, K i -> ~ D i) -> struct_at h hh' K s e.
Proof.
  intros (A & B & C & N & K1 & K2 & K3) Fr KD. split; [eapply frame_block; eauto|]. split; [eapply frame_block; eauto|]. split; [eapply frame_block; eauto|]. tauto.
Qed.
Lemma eff_field_radial h hh K s e p f cells x : eff_ok h 16 2 e -> struct_at h hh K s e -> block hh p Float64 cells -> firstn 3 cells = [vx x; vy x; vz x] ->
  c_field_radial p f (cs_charges s) (cs_jacobians s) (cs_positions s) (cs_N s) hh = st3 f (field_radial x (line_eff h e)) hh.
Proof.
  intros (N & (Aq & Sq & _) & (Aj & Sj & _) & (Ax & Sx & _)) (B1 & B2 & B3 & SN & _) Bp F. rewrite Sq in SN. injection SN as <-.
  rewrite (val_field_radial (with_point h x) hh (point_in h) (e_charges e) (e_jacobians e) (e_positions e) p (cs_charges s) (cs_jacobians s) (cs_positions s) N); try assumption; try (apply at_with; assumption); [|eapply at_point; eassumption|reflexivity].
  rewrite point_of_point, line_charges_with by assumption. reflexivity.
Qed.
Lemma eff_field_3d h hh K s e p f cells x : eff_ok h 12 3 e -> struct_at h hh K s e -> block hh p Float64 cells -> firstn 3 cells = [vx x; vy x; vz x] ->
  c_field_3d p f (cs_charges s) (cs_jacobians s) (cs_positions s) (cs_N s) hh = st3 f (field_3d x (triangle_eff h e)) hh.
Proof.
  intros (N & (Aq & Sq & _) & (Aj & Sj & _) & (Ax & Sx & _)) (B1 & B2 & B3 & SN & _) Bp F. rewrite Sq in SN. injection SN as <-.
  rewrite (val_field_3d (with_point h x) hh (point_in h) (e_charges e) (e_jacobians e) (e_positions e) p (cs_charges s) (cs_jacobians s) (cs_positions s) N); try assumption; try (apply at_with; assumption); [|eapply at_point; eassumption|reflexivity].
  rewrite point_of_point, triangle_charges_with by assumption. reflexivity.
Qed.
Lemma eff_current_field h hh K s e p f cells x : eff_ok h 12 3 e -> struct_at h hh K s e -> block hh p Float64 cells -> firstn 3 cells = [vx x; vy x; vz x] ->
  c_current_field p f (cs_charges s) (cs_jacobians s) (cs_positions s) (cs_N s) hh = st3 f (current_field x (triangle_eff h e)) hh.
Proof.
  intros (N & (Aq & Sq & _) & (Aj & Sj & _) & (Ax & Sx & _)) (B1 & B2 & B3 & SN & _) Bp F. rewrite Sq in SN. injection SN as <-.
  rewrite (val_current_field (with_point h x) hh (point_in h) (e_charges e) (e_jacobians e) (e_positions e) p (cs_charges s) (cs_jacobians s) (cs_positions s) N); try assumption; try (apply at_with; assumption); [|eapply at_point; eassumption|reflexivity].
  rewrite point_of_point, triangle_charges_with by assumption. reflexivity.
Qed.
(** ** Bounds of a field *)
Definition bounds_at (hh : heap) (K : nat -> Prop) (p : option ptr) (b : option (vec3 * vec3)) : Prop :=
  match p, b with
  | None, None => True
  | Some p, Some b => block hh p Float64 (bounds_cells b) /\ K (p_buffer p)
  | _, _ => False
  end.
Lemma bounds_frame hh hh' D (K : nat -> Prop) p b : bounds_at hh K p b -> frame D hh hh' -> (forall i, K i -> ~ D i) -> bounds_at hh' K p b.
Proof. destruct p, b; cbn; try tauto. intros [B Kp] Fr KD. split; [eapply frame_block; eauto|exact Kp]. Qed.
Lemma inside2 hh K bp b p s : bounds_at hh K bp b -> block hh p Float64 (vals s) ->
  c_inside 2 bp p hh = Done (match b with None => true | Some (lo, hi) => ltb (vx lo) (vx (s_pos s)) && ltb (vx (s_pos s)) (vx hi) && ltb (vy lo) (vy (s_pos s)) && ltb (vy (s_pos s)) (vy hi) end) hh.
Proof.
  destruct bp as [bp|], b as [[lo hi]|]; cbn [bounds_at]; try tauto. intros [B _] P. unfold c_inside. cbn [c_inside_from Nat.mul Nat.add].
  assert (LB : forall i, (i < 6)%nat -> ld bp i hh = Done (nth i (bounds_cells (lo, hi)) 0) hh) by (intros i Hi; apply B; exact Hi).
  assert (LP : forall i, (i < 6)%nat -> ld p i hh = Done (nth i (vals s) 0) hh) by (intros i Hi; apply P; exact Hi).
  rewrite (bnd_done _ _ _ _ _ (LB 0%nat ltac:(lia))), (bnd_done _ _ _ _ _ (LP 0%nat ltac:(lia))). cbn [nth bounds_cells vals]. destruct (ltb (vx lo) _); [|reflexivity].
  rewrite (bnd_done _ _ _ _ _ (LP 0%nat ltac:(lia))), (bnd_done _ _ _ _ _ (LB 1%nat ltac:(lia))). cbn [nth bounds_cells vals]. destruct (ltb _ (vx hi)); [|reflexivity].
  rewrite (bnd_done _ _ _ _ _ (LB 2%nat ltac:(lia))), (bnd_done _ _ _ _ _ (LP 1%nat ltac:(lia))). cbn [nth bounds_cells vals]. destruct (ltb (vy lo) _); [|reflexivity].
  rewrite (bnd_done _ _ _ _ _ (LP 1%nat ltac:(lia))), (bnd_done _ _ _ _ _ (LB 3%nat ltac:(lia))). cbn [nth bounds_cells vals]. destruct (ltb _ (vy hi)); reflexivity.
Qed.
Lemma inside3 hh K bp b p s : bounds_at hh K bp b -> block hh p Float64 (vals s) ->
  c_inside 3 bp p hh = Done (match b with None => true | Some (lo, hi) => ltb (vx lo) (vx (s_pos s)) && ltb (vx (s_pos s)) (vx hi) && ltb (vy lo) (vy (s_pos s)) && ltb (vy (s_pos s)) (vy hi) && ltb (vz lo) (vz (s_pos s)) && ltb (vz (s_pos s)) (vz hi) end) hh.
Proof.
  destruct bp as [bp|], b as [[lo hi]|]; cbn [bounds_at]; try tauto. intros [B _] P. unfold c_inside. cbn [c_inside_from Nat.mul Nat.add].
  assert (LB : forall i, (i < 6)%nat -> ld bp i hh = Done (nth i (bounds_cells (lo, hi)) 0) hh) by (intros i Hi; apply B; exact Hi).
  assert (LP : forall i, (i < 6)%nat -> ld p i hh = Done (nth i (vals s) 0) hh) by (intros i Hi; apply P; exact Hi).
  rewrite (bnd_done _ _ _ _ _ (LB 0%nat ltac:(lia))), (bnd_done _ _ _ _ _ (LP 0%nat ltac:(lia))). cbn [nth bounds_cells vals]. destruct (ltb (vx lo) _); [|reflexivity].
  rewrite (bnd_done _ _ _ _ _ (LP 0%nat ltac:(lia))), (bnd_done _ _ _ _ _ (LB 1%nat ltac:(lia))). cbn [nth bounds_cells vals]. destruct (ltb _ (vx hi)); [|reflexivity].
  rewrite (bnd_done _ _ _ _ _ (LB 2%nat ltac:(lia))), (bnd_done _ _ _ _ _ (LP 1%nat ltac:(lia))). cbn [nth bounds_cells vals]. destruct (ltb (vy lo) _); [|reflexivity].
  rewrite (bnd_done _ _ _ _ _ (LP 1%nat ltac:(lia))), (bnd_done _ _ _ _ _ (LB 3%nat ltac:(lia))). cbn [nth bounds_cells vals]. destruct (ltb _ (vy hi)); [|reflexivity].
  rewrite (bnd_done _ _ _ _ _ (LB 4%nat ltac:(lia))), (bnd_done _ _ _ _ _ (LP 2%nat ltac:(lia))). cbn [nth bounds_cells vals]. destruct (ltb (vz lo) _); [|reflexivity].
  rewrite (bnd_done _ _ _ _ _ (LP 2%nat ltac:(lia))), (bnd_done _ _ _ _ _ (LB 5%nat ltac:(lia))). cbn [nth bounds_cells vals]. destruct (ltb _ (vz hi)); reflexivity.
Qed.
(** ** Locals *)
Lemma st3_cells h n cells v : nth_error h n = Some (mkbuffer Float64 cells) -> length cells = 3%nat -> st3 (mkptr n 0) v h = Done tt (put h n [vx v; vy v; vz v]).
Proof. intros E L. assert (B : (n < length h)%nat) by (apply nth_error_Some; congruence). rewrite <- (st3_put h n cells v B L). now rewrite (put_same h n) by exact E. Qed.
Definition cells3 (v : vec3) : list R := [vx v; vy v; vz v].
(** the sum of the forces, once the fields are known *)
Lemma combine_tail hh X n p s ne nm nc e m c : extends hh X -> (length hh <= ne)%nat -> (length hh <= nm)%nat -> (length hh <= nc)%nat ->
  nth_error X ne = Some (mkbuffer Float64 (cells3 e)) -> nth_error X nm = Some (mkbuffer Float64 (cells3 m)) -> nth_error X nc = Some (mkbuffer Float64 (cells3 c)) ->
  block hh p Float64 (vals s) -> nth_error hh n = Some (mkbuffer Float64 [0; 0; 0]) ->
  let v := combine_elec_magnetic_field (s_vel s) e m c in
  exists hh', c_combine_elec_magnetic_field (shift p 3) (mkptr ne 0) (mkptr nm 0) (mkptr nc 0) (mkptr n 0) X = Done tt hh' /\ extends (put hh n [vx v; vy v; vz v]) hh'.
Proof.
  intros E He Hm Hc Be Bm Bc Bp Bn v. assert (Ln : (n < length hh)%nat) by (apply nth_error_Some; congruence). exists (put X n [vx v; vy v; vz v]). split; [|now apply extends_put_both].
  unfold c_combine_elec_magnetic_field.
  rewrite (bnd_done _ _ _ _ _ (ld3_block0 X _ _ (nth_buffer_block _ _ _ _ Bm) ltac:(cbn; lia))), (bnd_done _ _ _ _ _ (ld3_block0 X _ _ (nth_buffer_block _ _ _ _ Bc) ltac:(cbn; lia))).
  rewrite (bnd_done _ _ _ _ _ (ld3_block X p _ 3 (extends_block _ _ _ _ _ E Bp) ltac:(cbn; lia))), (bnd_done _ _ _ _ _ (ld3_block0 X _ _ (nth_buffer_block _ _ _ _ Be) ltac:(cbn; lia))).
  cbn [Nat.add nth vals cells3]. rewrite (st3_cells X n [0; 0; 0]) by (try reflexivity; eapply extends_nth; eassumption). unfold v. destruct s as [[] []], e, m, c; reflexivity.
Qed.
Lemma zero_force hh n : nth_error hh n = Some (mkbuffer Float64 [0; 0; 0]) -> exists hh', st3 (mkptr n 0) vzero hh = Done tt hh' /\ extends (put hh n [0; 0; 0]) hh'.
Proof. intros E. eexists. split; [now apply (st3_cells hh n [0; 0; 0])|apply extends_refl]. Qed.

Section Implement.
Variables (h0 h : heap) (D K : nat -> Prop).
Hypothesis KD : forall i, K i -> ~ D i.
Definition ZERO3 : buffer := mkbuffer Float64 [0; 0; 0].
Lemma first3 s : firstn 3 (vals s) = [vx (s_pos s); vy (s_pos s); vz (s_pos s)]. Proof. reflexivity. Qed.
Lemma implements_radial elec mag cur es ms cs bp b : eff_ok h0 16 2 elec -> eff_ok h0 16 2 mag -> eff_ok h0 12 3 cur ->
  struct_at h0 h K es elec -> struct_at h0 h K ms mag -> struct_at h0 h K cs cur -> bounds_at h K bp b ->
  implements h D (c_field_radial_traceable es ms cs bp) (field_radial_traceable (mkbem FieldRadialBEM (line_eff h0 elec) (line_eff h0 mag) (triangle_eff h0 cur) b)).
Proof.
  intros Oe Om Oc Se Sm Sc Sb hh p n s v Fr Bp _ _ _ Bn HF.
  apply (struct_frame h0 h hh D K es elec) in Se; [|exact Fr|exact KD]. apply (struct_frame h0 h hh D K ms mag) in Sm; [|exact Fr|exact KD]. apply (struct_frame h0 h hh D K cs cur) in Sc; [|exact Fr|exact KD].
  apply (bounds_frame h hh D K bp b) in Sb; [|exact Fr|exact KD].
  unfold field_radial_traceable in HF. cbv zeta in HF. cbn [b_bounds b_elec b_mag b_cur] in HF. unfold c_field_radial_traceable. rewrite (bnd_done _ _ _ _ _ (inside2 hh K bp b p s Sb Bp)).
  match type of HF with Ok (if ?c then _ else _) = _ => destruct c end; injection HF as <-; [|now apply zero_force].
  set (ne := length hh). set (h1 := hh ++ [ZERO3]). set (nm := length h1). set (h2 := h1 ++ [ZERO3]). set (nc := length h2). set (h3 := h2 ++ [ZERO3]).
  assert (Lm : nm = S ne) by (unfold nm, h1; rewrite app_length; cbn; lia). assert (Lc : nc = S nm) by (unfold nc, h2; rewrite app_length; cbn; lia). assert (L3 : length h3 = S nc) by (unfold h3; rewrite app_length; cbn; lia).
  assert (E1 : extends hh h1) by apply extends_new. assert (E2 : extends h1 h2) by apply extends_new. assert (E3 : extends h2 h3) by apply extends_new. assert (E : extends hh h3) by (eapply extends_trans; [exact E1|eapply extends_trans; eassumption]).
  assert (Ne : nth_error h3 ne = Some ZERO3) by (eapply extends_nth; [eapply extends_trans; [exact E2|exact E3]|apply new_nth]). assert (Nm : nth_error h3 nm = Some ZERO3) by (eapply extends_nth; [exact E3|apply new_nth]). assert (Nc : nth_error h3 nc = Some ZERO3) by apply new_nth.
  erewrite bnd_done by reflexivity. fold ne. fold h1. erewrite bnd_done by reflexivity. fold nm. fold h2. erewrite bnd_done by reflexivity. fold nc. fold h3.
  set (ve := field_radial (s_pos s) (line_eff h0 elec)). set (vm := field_radial (s_pos s) (line_eff h0 mag)). set (vc := current_field (s_pos s) (triangle_eff h0 cur)).
  set (h4 := put h3 ne (cells3 ve)). set (h5 := put h4 nm (cells3 vm)). set (h6 := put h5 nc (cells3 vc)).
  assert (E4 : extends hh h4) by (apply extends_put; [exact E|unfold ne; lia]). assert (E5 : extends hh h5) by (apply extends_put; [exact E4|unfold ne in *; lia]). assert (E6 : extends hh h6) by (apply extends_put; [exact E5|unfold ne in *; lia]).
  assert (X : forall hx, extends hh hx -> struct_at h0 hx K es elec /\ struct_at h0 hx K ms mag /\ struct_at h0 hx K cs cur).
  { intros hx Ex. repeat split; try apply Se; try apply Sm; try apply Sc; eapply extends_block; try exact Ex; try apply Se; try apply Sm; try apply Sc. }
  assert (R4 : c_field_radial p (mkptr ne 0) (cs_charges es) (cs_jacobians es) (cs_positions es) (cs_N es) h3 = Done tt h4).
  { rewrite (eff_field_radial h0 h3 K es elec p _ (vals s) (s_pos s) Oe (proj1 (X h3 E)) (extends_block _ _ _ _ _ E Bp) (first3 s)). now rewrite (st3_cells h3 ne [0; 0; 0]). }
  rewrite (bnd_done _ _ _ _ _ R4).
  assert (R5 : c_field_radial p (mkptr nm 0) (cs_charges ms) (cs_jacobians ms) (cs_positions ms) (cs_N ms) h4 = Done tt h5).
  { rewrite (eff_field_radial h0 h4 K ms mag p _ (vals s) (s_pos s) Om (proj1 (proj2 (X h4 E4))) (extends_block _ _ _ _ _ E4 Bp) (first3 s)). rewrite (st3_cells h4 nm [0; 0; 0]); [reflexivity| |reflexivity]. unfold h4. rewrite nth_put_other by lia. exact Nm. }
  rewrite (bnd_done _ _ _ _ _ R5).
  assert (R6 : c_current_field p (mkptr nc 0) (cs_charges cs) (cs_jacobians cs) (cs_positions cs) (cs_N cs) h5 = Done tt h6).
  { rewrite (eff_current_field h0 h5 K cs cur p _ (vals s) (s_pos s) Oc (proj2 (proj2 (X h5 E5))) (extends_block _ _ _ _ _ E5 Bp) (first3 s)). rewrite (st3_cells h5 nc [0; 0; 0]); [reflexivity| |reflexivity]. unfold h5. rewrite nth_put_other by lia. unfold h4. rewrite nth_put_other by lia. exact Nc. }
  rewrite (bnd_done _ _ _ _ _ R6).
  apply (combine_tail hh h6 n p s ne nm nc ve vm vc); try assumption; try (unfold ne in *; lia).
  - unfold h6, h5, h4. rewrite !nth_put_other by lia. apply nth_put. lia.
  - unfold h6, h5. rewrite nth_put_other by lia. apply nth_put. unfold h4. rewrite put_length. lia.
  - apply nth_put. unfold h5, h4. rewrite !put_length. lia.
Qed.
Lemma implements_3d elec mag es ms bp b : eff_ok h0 12 3 elec -> eff_ok h0 12 3 mag ->
  struct_at h0 h K es elec -> struct_at h0 h K ms mag -> bounds_at h K bp b -> forall f, b_elec f = triangle_eff h0 elec -> b_mag f = triangle_eff h0 mag ->
  implements h D (c_field_3d_traceable es ms bp) (field_3d_traceable b f).
Proof.
  intros Oe Om Se Sm Sb f Fe Fm hh p n s v Fr Bp _ _ _ Bn HF.
  apply (struct_frame h0 h hh D K es elec) in Se; [|exact Fr|exact KD]. apply (struct_frame h0 h hh D K ms mag) in Sm; [|exact Fr|exact KD].
  apply (bounds_frame h hh D K bp b) in Sb; [|exact Fr|exact KD].
  unfold field_3d_traceable in HF. cbv zeta in HF. rewrite Fe, Fm in HF. unfold c_field_3d_traceable. rewrite (bnd_done _ _ _ _ _ (inside3 hh K bp b p s Sb Bp)).
  match type of HF with Ok (if ?c then _ else _) = _ => destruct c end; injection HF as <-; [|now apply zero_force].
  set (ne := length hh). set (h1 := hh ++ [ZERO3]). set (nm := length h1). set (h2 := h1 ++ [ZERO3]). set (nc := length h2). set (h3 := h2 ++ [ZERO3]).
  assert (Lm : nm = S ne) by (unfold nm, h1; rewrite app_length; cbn; lia). assert (Lc : nc = S nm) by (unfold nc, h2; rewrite app_length; cbn; lia). assert (L3 : length h3 = S nc) by (unfold h3; rewrite app_length; cbn; lia).
  assert (E1 : extends hh h1) by apply extends_new. assert (E2 : extends h1 h2) by apply extends_new. assert (E3 : extends h2 h3) by apply extends_new. assert (E : extends hh h3) by (eapply extends_trans; [exact E1|eapply extends_trans; eassumption]).
  assert (Ne : nth_error h3 ne = Some ZERO3) by (eapply extends_nth; [eapply extends_trans; [exact E2|exact E3]|apply new_nth]). assert (Nm : nth_error h3 nm = Some ZERO3) by (eapply extends_nth; [exact E3|apply new_nth]). assert (Nc : nth_error h3 nc = Some ZERO3) by apply new_nth.
  erewrite bnd_done by reflexivity. fold ne. fold h1. erewrite bnd_done by reflexivity. fold nm. fold h2. erewrite bnd_done by reflexivity. fold nc. fold h3.
  set (ve := field_3d (s_pos s) (triangle_eff h0 elec)). set (vm := field_3d (s_pos s) (triangle_eff h0 mag)).
  set (h4 := put h3 ne (cells3 ve)). set (h5 := put h4 nm (cells3 vm)).
  assert (E4 : extends hh h4) by (apply extends_put; [exact E|unfold ne; lia]). assert (E5 : extends hh h5) by (apply extends_put; [exact E4|unfold ne in *; lia]).
  assert (X : forall hx, extends hh hx -> struct_at h0 hx K es elec /\ struct_at h0 hx K ms mag).
  { intros hx Ex. repeat split; try apply Se; try apply Sm; eapply extends_block; try exact Ex; try apply Se; try apply Sm. }
  assert (R4 : c_field_3d p (mkptr ne 0) (cs_charges es) (cs_jacobians es) (cs_positions es) (cs_N es) h3 = Done tt h4).
  { rewrite (eff_field_3d h0 h3 K es elec p _ (vals s) (s_pos s) Oe (proj1 (X h3 E)) (extends_block _ _ _ _ _ E Bp) (first3 s)). now rewrite (st3_cells h3 ne [0; 0; 0]). }
  rewrite (bnd_done _ _ _ _ _ R4).
  assert (R5 : c_field_3d p (mkptr nm 0) (cs_charges ms) (cs_jacobians ms) (cs_positions ms) (cs_N ms) h4 = Done tt h5).
  { rewrite (eff_field_3d h0 h4 K ms mag p _ (vals s) (s_pos s) Om (proj2 (X h4 E4)) (extends_block _ _ _ _ _ E4 Bp) (first3 s)). rewrite (st3_cells h4 nm [0; 0; 0]); [reflexivity| |reflexivity]. unfold h4. rewrite nth_put_other by lia. exact Nm. }
  rewrite (bnd_done _ _ _ _ _ R5).
  apply (combine_tail hh h5 n p s ne nm nc ve vm vzero); try assumption; try (unfold ne in *; lia).
  - unfold h5, h4. rewrite !nth_put_other by lia. apply nth_put. lia.
  - unfold h5. apply nth_put. unfold h4. rewrite put_length. lia.
  - unfold h5, h4. rewrite !nth_put_other by lia. exact Nc.
Qed.
(** fields interpolated from the axis; the arrays [z], [elec] and [mag] are passed to the library *)
Lemma implements_radial_derivs junk z elec mag zp ep mp N_z : floats h0 z [N_z] -> floats h0 elec [(N_z - 1)%nat; 9%nat; 6%nat] -> floats h0 mag [(N_z - 1)%nat; 9%nat; 6%nat] ->
  at_ h0 z h zp -> at_ h0 elec h ep -> at_ h0 mag h mp -> K (p_buffer zp) -> K (p_buffer ep) -> K (p_buffer mp) ->
  implements h D (c_field_radial_derivs_traceable junk zp ep mp N_z) (field_radial_derivs_traceable (mkaxial (samples h0 z) (table h0 elec) (table h0 mag))).
Proof.
  intros (Az & Sz & _) (Ae & Se & _) (Am & Sm & _) Bz Be Bm Kz Ke Km hh p n s v Fr Bp _ _ _ Bn HF.
  pose proof (frame_block _ _ _ _ _ _ Fr (KD _ Kz) Bz) as Bz'. pose proof (frame_block _ _ _ _ _ _ Fr (KD _ Ke) Be) as Be'. pose proof (frame_block _ _ _ _ _ _ Fr (KD _ Km) Bm) as Bm'.
  unfold field_radial_derivs_traceable, axial_field in HF. cbn [a_z a_elec a_mag] in HF. apply bind_ok in HF. destruct HF as (ve & He & HF). apply bind_ok in HF. destruct HF as (vm & Hm & HF). injection HF as <-.
  assert (G : forall c cp vc hx f, array_ok h0 c -> nd_shape c = [(N_z - 1)%nat; 9%nat; 6%nat] -> at_ h0 c hh cp -> field_radial_derivs (s_pos s) (samples h0 z) (table h0 c) = Ok vc -> extends hh hx -> c_field_radial_derivs p f zp cp N_z hx = st3 f vc hx).
  { intros c cp vc hx f Ac Sc Bc Hc Ex. apply (val_field_radial_derivs (with_point h0 (s_pos s)) z c hx p (point_in h0) f zp cp N_z vc); try assumption; try reflexivity.
    - eapply at_point; [eapply extends_block; eassumption|reflexivity].
    - apply at_with; [exact Az|]. eapply extends_block; eassumption.
    - apply at_with; [exact Ac|]. eapply extends_block; eassumption.
    - rewrite point_of_point, samples_with, table_with by assumption. exact Hc. }
  unfold c_field_radial_derivs_traceable. set (J := mkbuffer Float64 (cells3 junk)).
  set (ne := length hh). set (h1 := hh ++ [J]). set (h2 := put h1 ne (cells3 ve)). set (nm := length h2). set (h3 := h2 ++ [J]). set (h4 := put h3 nm (cells3 vm)). set (nc := length h4). set (h5 := h4 ++ [ZERO3]).
  assert (Lm : nm = S ne) by (unfold nm, h2; rewrite put_length; unfold h1; rewrite app_length; cbn; lia). assert (Lc : nc = S nm) by (unfold nc, h4; rewrite put_length; unfold h3; rewrite app_length; cbn; lia).
  assert (E1 : extends hh h1) by apply extends_new. assert (E2 : extends hh h2) by (apply extends_put; [exact E1|unfold ne; lia]). assert (E3 : extends hh h3) by (eapply extends_trans; [exact E2|apply extends_new]). assert (E4 : extends hh h4) by (apply extends_put; [exact E3|unfold ne in *; lia]). assert (E5 : extends hh h5) by (eapply extends_trans; [exact E4|apply extends_new]).
  assert (N1 : nth_error h1 ne = Some J) by apply new_nth. assert (N3 : nth_error h3 nm = Some J) by apply new_nth.
  assert (L1 : length h1 = S ne) by (unfold h1; rewrite app_length; cbn; lia).
  assert (N2 : nth_error h2 ne = Some (mkbuffer Float64 (cells3 ve))) by (apply nth_put; lia).
  unfold uninitialised. fold (cells3 junk). erewrite bnd_done by reflexivity. fold J. fold ne. fold h1.
  assert (R2 : c_field_radial_derivs p (mkptr ne 0) zp ep N_z h1 = Done tt h2) by (rewrite (G elec ep ve h1 _ Ae Se Be' He E1); now rewrite (st3_cells h1 ne (cells3 junk))).
  rewrite (bnd_done _ _ _ _ _ R2). erewrite bnd_done by reflexivity. fold J. fold nm. fold h3.
  assert (R4 : c_field_radial_derivs p (mkptr nm 0) zp mp N_z h3 = Done tt h4) by (rewrite (G mag mp vm h3 _ Am Sm Bm' Hm E3); now rewrite (st3_cells h3 nm (cells3 junk))).
  rewrite (bnd_done _ _ _ _ _ R4). erewrite bnd_done by reflexivity. fold nc. fold ZERO3. fold h5.
  apply (combine_tail hh h5 n p s ne nm nc ve vm vzero); try assumption; try (unfold ne in *; lia).
  - eapply extends_nth; [apply extends_new|]. unfold h4. rewrite nth_put_other by lia. eapply extends_nth; [apply extends_new|exact N2].
  - eapply extends_nth; [apply extends_new|]. unfold h4. apply nth_put. unfold h3. rewrite app_length. cbn. lia.
  - apply new_nth.
Qed.
Lemma implements_3d_derivs junk z elec mag zp ep mp N_z : floats h0 z [N_z] -> floats h0 elec [(N_z - 1)%nat; 2%nat; NU_MAX; M_MAX; 4%nat] -> floats h0 mag [(N_z - 1)%nat; 2%nat; NU_MAX; M_MAX; 4%nat] ->
  at_ h0 z h zp -> at_ h0 elec h ep -> at_ h0 mag h mp -> K (p_buffer zp) -> K (p_buffer ep) -> K (p_buffer mp) -> (forall i, K i -> (i < length h)%nat) ->
  implements h D (c_field_3d_derivs_traceable junk zp ep mp N_z) (field_3d_derivs_traceable (samples h0 z) (table3d h0 elec) (table3d h0 mag)).
Proof.
  intros (Az & Sz & _) (Ae & Se & _) (Am & Sm & _) Bz Be Bm Kz Ke Km KL hh p n s v Fr Bp _ _ _ Bn HF.
  pose proof (frame_block _ _ _ _ _ _ Fr (KD _ Kz) Bz) as Bz'. pose proof (frame_block _ _ _ _ _ _ Fr (KD _ Ke) Be) as Be'. pose proof (frame_block _ _ _ _ _ _ Fr (KD _ Km) Bm) as Bm'. pose proof (proj1 Fr) as LF. apply KL in Kz, Ke, Km.
  assert (Lp : (p_buffer p < length hh)%nat) by (apply (load_buffer Float64 p 0 hh (nth 0 (vals s) 0)); apply (Bp 0%nat); cbn; lia).
  unfold field_3d_derivs_traceable in HF. apply bind_ok in HF. destruct HF as (ve & He & HF). apply bind_ok in HF. destruct HF as (vm & Hm & HF). injection HF as <-.
  assert (G : forall c cp vc hx f cells, array_ok h0 c -> nd_shape c = [(N_z - 1)%nat; 2%nat; NU_MAX; M_MAX; 4%nat] -> at_ h0 c hh cp -> (p_buffer cp < length h)%nat -> field_3d_derivs (s_pos s) (samples h0 z) (table3d h0 c) = Ok vc -> extends hh hx ->
    (length hh <= f)%nat -> nth_error hx f = Some (mkbuffer Float64 cells) -> length cells = 3%nat -> c_field_3d_derivs p (mkptr f 0) zp cp N_z hx = Done tt (put hx f (cells3 vc))).
  { intros c cp vc hx f cells Ac Sc Bc Kc Hc Ex Lf Nf Lc. apply (val_field_3d_derivs (with_point h0 (s_pos s)) z c hx p (point_in h0) f zp cp N_z vc cells); try assumption; try reflexivity; try lia.
    - eapply at_point; [eapply extends_block; eassumption|reflexivity].
    - apply at_with; [exact Az|]. eapply extends_block; eassumption.
    - apply at_with; [exact Ac|]. eapply extends_block; eassumption.
    - rewrite point_of_point, samples_with, table3d_with by assumption. exact Hc. }
  unfold c_field_3d_derivs_traceable. set (J := mkbuffer Float64 (cells3 junk)).
  set (ne := length hh). set (h1 := hh ++ [J]). set (h2 := put h1 ne (cells3 ve)). set (nm := length h2). set (h3 := h2 ++ [J]). set (h4 := put h3 nm (cells3 vm)). set (nc := length h4). set (h5 := h4 ++ [ZERO3]).
  assert (Lm : nm = S ne) by (unfold nm, h2; rewrite put_length; unfold h1; rewrite app_length; cbn; lia). assert (Lc : nc = S nm) by (unfold nc, h4; rewrite put_length; unfold h3; rewrite app_length; cbn; lia).
  assert (E1 : extends hh h1) by apply extends_new. assert (E2 : extends hh h2) by (apply extends_put; [exact E1|unfold ne; lia]). assert (E3 : extends hh h3) by (eapply extends_trans; [exact E2|apply extends_new]). assert (E4 : extends hh h4) by (apply extends_put; [exact E3|unfold ne in *; lia]). assert (E5 : extends hh h5) by (eapply extends_trans; [exact E4|apply extends_new]).
  assert (N1 : nth_error h1 ne = Some J) by apply new_nth. assert (N3 : nth_error h3 nm = Some J) by apply new_nth.
  assert (L1 : length h1 = S ne) by (unfold h1; rewrite app_length; cbn; lia).
  assert (N2 : nth_error h2 ne = Some (mkbuffer Float64 (cells3 ve))) by (apply nth_put; lia).
  unfold uninitialised. fold (cells3 junk). erewrite bnd_done by reflexivity. fold J. fold ne. fold h1.
  assert (R2 : c_field_3d_derivs p (mkptr ne 0) zp ep N_z h1 = Done tt h2) by (apply (G elec ep ve h1 ne (cells3 junk) Ae Se Be' Ke He E1); [unfold ne; lia|exact N1|reflexivity]).
  rewrite (bnd_done _ _ _ _ _ R2). erewrite bnd_done by reflexivity. fold J. fold nm. fold h3.
  assert (R4 : c_field_3d_derivs p (mkptr nm 0) zp mp N_z h3 = Done tt h4) by (apply (G mag mp vm h3 nm (cells3 junk) Am Sm Bm' Km Hm E3); [unfold ne in *; lia|exact N3|reflexivity]).
  rewrite (bnd_done _ _ _ _ _ R4). erewrite bnd_done by reflexivity. fold nc. fold ZERO3. fold h5.
  apply (combine_tail hh h5 n p s ne nm nc ve vm vzero); try assumption; try (unfold ne in *; lia).
  - eapply extends_nth; [apply extends_new|]. unfold h4. rewrite nth_put_other by lia. eapply extends_nth; [apply extends_new|exact N2].
  - eapply extends_nth; [apply extends_new|]. unfold h4. apply nth_put. unfold h3. rewrite app_length. cbn. lia.
  - apply new_nth.
Qed.
End Implement.
