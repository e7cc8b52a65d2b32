(** Calls of the tracers refine TracingModel. *)
From Coq Require Import Reals Lra.
From Verif Require Import Base BaseFacts Vec GeomModel MemModel FieldModel SeriesModel Axial3DModel DispatchModel TracingModel MemFacts BackendModel BackendSafe BackendValues BackendCalls BackendReturns BackendTables BackendBuffers BackendSeries BackendSeries3D TraceMemModel TraceMemSpec TraceMemFacts TraceMemBlocks TraceMemFields.
Local Open Scope R_scope.
Local Open Scope mem_scope.

(** ** Filling a block of samples *)
Lemma pass_view s n hh : pass (ByShape s Float64) (view n 0 s) hh = Done (mkptr n 0) hh.
Proof.
  assert (C : is_contiguous (view n 0 s) = true) by (unfold is_contiguous; cbn [view nd_shape nd_strides]; now rewrite c_strides_contiguous, orb_true_r).
  assert (A : accepts (ByShape s Float64) (view n 0 s) = true) by (unfold accepts, has_shape; cbn [view nd_shape nd_dtype]; now rewrite (proj2 (shape_eqb_eq s s) eq_refl)).
  unfold pass, ensure_contiguous_aligned, bnd. rewrite C, A. reflexivity.
Qed.
Section Fill.
Variables (hA hB : heap) (inner blk : nat) (F : field_fun) (tb : ndarray) (bounds : box) (atol : R).
Hypothesis EAB : extends hA hB.
Hypothesis Htb : floats hA tb [3%nat; 2%nat].
Hypothesis Ctb : contents hA tb = box_cells bounds.
Hypothesis Hblk : (2 <= blk)%nat.
(** [k] makes the field function, given the rest of the call *)
Definition makes (k : (c_field_fun -> M nat) -> M nat) : Prop :=
  forall hh nT nP run Q, extends hB hh -> (length hB <= nT < length hh)%nat -> (length hB <= nP < length hh)%nat ->
    (forall f h', extends hh h' -> implements h' (fun i => i = nT \/ i = nP) f F -> wp h' (run f) Q) -> wp hh (k run) Q.
Lemma fills_makes k : makes k -> fills hB inner blk F bounds atol (fun T P => pass_blocks blk T P tb (fun t p b => k (fun f => c_trace_particle inner blk t p f b atol))).
Proof.
  intros Hk hh nT nP t y samples E BT BP NE Ho H. destruct Htb as (Ab & Sb & Tb).
  enough (W : wp hh (pass_blocks blk (view nT 0 [blk]) (view nP 0 [blk; 6%nat]) tb (fun t p b => k (fun f => c_trace_particle inner blk t p f b atol)))
    (fun n hh' => n = length samples /\ frame (fun i => i = nT \/ i = nP) hh hh' /\ holds hh' nT nP blk samples /\ (1 <= length samples <= blk)%nat)).
  { destruct W as (n & hh' & R & -> & W). exists hh'. split; [exact R|exact W]. }
  unfold pass_blocks. eapply wp_done; [apply pass_view|]. eapply wp_done; [apply pass_view|].
  apply (wp_pass hA hh _ tb Float64); [exact Ab|eapply extends_trans; eassumption| |exact Tb|].
  { unfold accepts, has_shape. rewrite Sb, Tb. reflexivity. }
  intros b h1 E1 Bb _. pose proof (extends_length _ _ E1) as L1. rewrite Ctb in Bb. apply (Hk h1 nT nP); [eapply extends_trans; eassumption|lia|lia|]. intros f h2 E2 I.
  pose proof (extends_length _ _ E2) as L2. assert (Ho2 : holds h2 nT nP blk [(t, y)]) by (eapply holds_extends; [eapply holds_extends; [exact Ho|exact E1]|exact E2]).
  destruct (particle_refines h2 nT nP blk f F I NE ltac:(lia) ltac:(lia) inner b bounds atol t y samples h2 (frame_refl _ _) Ho2 Hblk (extends_block _ _ _ _ _ E2 Bb) H) as (h3 & R & Fr & Ho3 & L).
  exists (length samples), h3. split; [exact R|]. split; [reflexivity|]. split; [|split; assumption]. eapply frame_trans; [|exact Fr]. apply extends_frame. eapply extends_trans; eassumption.
Qed.
End Fill.

(** ** The structs of charges *)
Lemma wp_contiguous {A} h0 h a (k : ndarray -> M A) Q : array_ok h0 a -> extends h0 h ->
  (forall b h', extends h h' -> block h' (nd_base b) (nd_dtype a) (contents h0 a) -> (p_buffer (nd_base b) < length h')%nat -> wp h' (k b) Q) -> wp h (bnd (ensure_contiguous_aligned a) k) Q.
Proof.
  intros Ha E H. pose proof (extends_array _ _ _ E Ha) as Ha'. destruct (is_contiguous a) eqn:C.
  - apply (wp_done _ _ _ _ a h); [unfold ensure_contiguous_aligned; now rewrite C|]. apply H; [apply extends_refl| |].
    + rewrite <- (extends_contents _ _ _ E Ha). now apply contiguous_block.
    + destruct Ha' as (_ & b & Hb & _). apply nth_error_Some. congruence.
  - eapply wp_done; [unfold ensure_contiguous_aligned; rewrite C; apply new_array_eq|]. apply H; [apply extends_new| |cbn [MemFacts.fresh nd_base p_buffer]; rewrite app_length; cbn; lia].
    rewrite <- (extends_contents _ _ _ E Ha). pose proof (contents_length h a) as L.
    pose proof (contiguous_block _ _ (fresh_ok h (nd_shape a) (nd_dtype a) _ L) (fresh_contiguous _ _ _)) as B. now rewrite (fresh_contents _ _ _ _ L) in B.
Qed.
Definition low (h : heap) (i : nat) : Prop := (i < length h)%nat.
Lemma struct_extends h0 h h' s e : extends h h' -> struct_at h0 h (low h) s e -> struct_at h0 h' (low h) s e.
Proof. intros E (A & B & C & R). split; [eapply extends_block; eassumption|]. split; [eapply extends_block; eassumption|]. split; [eapply extends_block; eassumption|exact R]. Qed.
Lemma struct_low h0 h h' hh s e : extends h h' -> struct_at h0 hh (low h) s e -> struct_at h0 hh (low h') s e.
Proof. intros E (A & B & C & N & K1 & K2 & K3). pose proof (extends_length _ _ E). unfold low in *. repeat (split; [assumption|]). repeat split; lia. Qed.
Lemma wp_struct {A} h0 h Q D e (k : charge_struct -> M A) P : eff_ok h0 Q D e -> extends h0 h ->
  (forall s h', extends h h' -> struct_at h0 h' (low h') s e -> wp h' (k s) P) -> wp h (bnd (new_struct Q e) k) P.
Proof.
  intros (N & (Aq & Sq & Tq) & (Aj & Sj & Tj) & (Ax & Sx & Tx)) E H.
  enough (W : wp h (new_struct Q e) (fun s h' => extends h h' /\ struct_at h0 h' (low h') s e)).
  { destruct W as (s & h' & R & E' & St). apply (wp_done _ _ _ _ s h' R). now apply H. }
  unfold new_struct. rewrite Sj. apply wp_assert; [apply Nat.eqb_refl|].
  apply (wp_contiguous h0); [exact Aq|exact E|]. intros q h1 E1 Bq Lq. apply (wp_contiguous h0); [exact Aj|eapply extends_trans; eassumption|]. intros j h2 E2 Bj Lj.
  assert (E02 : extends h0 h2) by exact (extends_trans _ _ _ E (extends_trans _ _ _ E1 E2)).
  apply (wp_contiguous h0); [exact Ax|exact E02|]. intros x h3 E3 Bx Lx. eapply wp_len; [exact Sq|]. apply wp_ret. rewrite Tq in Bq. rewrite Tj in Bj. rewrite Tx in Bx.
  assert (E13 : extends h1 h3) by (eapply extends_trans; eassumption). pose proof (extends_length _ _ E13). pose proof (extends_length _ _ E3).
  split; [exact (extends_trans _ _ _ E1 E13)|]. unfold struct_at, at_, low. cbn [cs_charges cs_jacobians cs_positions cs_N]. split; [exact (extends_block _ _ _ _ _ E13 Bq)|]. split; [exact (extends_block _ _ _ _ _ E3 Bj)|]. split; [exact Bx|]. repeat split; try assumption; lia.
Qed.
(** ** Calls *)
Lemma bounds_given_at h0 h fb b : bounds_given h0 fb b -> extends h0 h -> bounds_at h (low h0) (data_as_double fb) b.
Proof.
  destruct fb as [a|], b as [b|]; cbn; try tauto. intros ((Aa & Sa & Ta) & C & Ec) E. split.
  - rewrite <- Ec, <- (extends_contents _ _ _ E Aa), <- Ta. apply contiguous_block; [now apply (extends_array h0)|exact C].
  - unfold low. destruct Aa as (_ & bb & Hb & _). apply nth_error_Some. congruence.
Qed.
Lemma bounds_low h h' hh p b : extends h h' -> bounds_at hh (low h) p b -> bounds_at hh (low h') p b.
Proof. intros E. destruct p, b; cbn; try tauto. intros [B L]. split; [exact B|]. pose proof (extends_length _ _ E). unfold low in *. lia. Qed.
Lemma bounds_extends h hh hh' p b : extends hh hh' -> bounds_at hh (low h) p b -> bounds_at hh' (low h) p b.
Proof. intros E. destruct p, b; cbn; try tauto. intros [B L]. split; [eapply extends_block; eassumption|exact L]. Qed.
(** The call returns the arrays of times and of positions of the given samples. *)

Ltac by_one N_z := unfold one_less; rewrite (proj2 (Nat.leb_le 1 N_z)) by lia; cbn [andb]; unfold has_shape; apply shape_eqb_eq; assumption.
Section Calls.
Variables (h : heap) (fuel inner blk : nat) (tb position velocity : ndarray) (bounds : box) (x v : vec3) (atol : R).
Hypothesis Hblk : (2 <= blk)%nat.
Hypothesis Hb : box_at h tb bounds.
Hypothesis Hx : vector_at h position x.
Lemma vector_extends h' h'' a w : extends h' h'' -> vector_at h' a w -> vector_at h'' a w.
Proof. intros E (A & S & C). split; [eapply extends_array; eassumption|]. split; [exact S|]. rewrite (extends_contents _ _ _ E A). exact C. Qed.
(** trace_particle_wrapper, once the structs exist *)
Lemma wrapper_call hB F k samples v' vel : extends h hB -> vector_at hB vel v' -> makes hB F k -> trace_blocks fuel inner blk F bounds atol true 0 (mkstate x v') = Ok samples ->
  wp hB (trace_particle_wrapper_py fuel blk position vel (fun T P => pass_blocks blk T P tb (fun t p b => k (fun f => c_trace_particle inner blk t p f b atol))))
    (fun TP h' => extends h h' /\ trajectory h' (fst TP) (snd TP) samples).
Proof.
  intros E Hv Mk H. destruct Hb as [Fb Cb]. pose proof (fills_makes h hB inner blk F tb bounds atol E Fb Cb Hblk k Mk) as Fi.
  pose proof (vector_extends _ _ _ _ E Hx) as (Ap & Sp & Cp). destruct Hv as (Av & Sv & Cv).
  destruct (wrapper_refines hB inner blk F bounds atol _ Fi Hblk fuel position vel x v' samples hB (extends_refl _) Ap Av Sp Sv Cp Cv H) as (T & P & h' & R & E' & Tr).
  exists (T, P), h'. split; [exact R|]. split; [eapply extends_trans; eassumption|exact Tr].
Qed.
(** the conversion of the velocity *)
Lemma converted w vel h' : extends h h' -> vector_at h' vel w -> convert_velocity_to_SI w = Ok v -> exists vel', convert_velocity_py vel h' = Done vel' (h' ++ [mkbuffer Float64 (cells3 v)]) /\ vector_at (h' ++ [mkbuffer Float64 (cells3 v)]) vel' v.
Proof.
  intros _ (A & S & C) H. unfold convert_velocity_py. unfold has_shape. rewrite S. change (shape_eqb [3%nat] [3%nat]) with true. cbv iota.
  rewrite <- (nth_contents1 h' vel 3 0), <- (nth_contents1 h' vel 3 1), <- (nth_contents1 h' vel 3 2) by (assumption || lia). rewrite C. cbn [nth]. replace (V3 (vx w) (vy w) (vz w)) with w by (destruct w; reflexivity). rewrite H.
  rewrite new_array_eq. eexists. split; [reflexivity|]. split; [now apply fresh_ok|]. split; [reflexivity|]. now apply fresh_contents.
Qed.
Hypothesis Hv : exists w, vector_at h velocity w /\ convert_velocity_to_SI w = Ok v.
Lemma returns_trajectory_wp (m : M (ndarray * ndarray)) samples : wp h m (fun TP h' => extends h h' /\ trajectory h' (fst TP) (snd TP) samples) -> returns_trajectory h m samples.
Proof. intros ([T P] & h' & R & E & Tr). exists T, P, h'. split; [exact R|]. split; [exact E|exact Tr]. Qed.
Lemma with_velocity (k : ndarray -> M (ndarray * ndarray)) Q : (forall vel h', extends h h' -> vector_at h' vel v -> wp h' (k vel) Q) -> wp h (bnd (convert_velocity_py velocity) k) Q.
Proof.
  intros H. destruct Hv as (w & Hw & Cw). destruct (converted w velocity h (extends_refl h) Hw Cw) as (vel & R & Hvel). eapply wp_done; [exact R|]. apply H; [apply extends_new|exact Hvel].
Qed.
Lemma disjoint hB hh nT nP : extends hB hh -> (length hB <= nT)%nat -> (length hB <= nP)%nat -> forall i, low hB i -> ~ (i = nT \/ i = nP).
Proof. unfold low. intros. lia. Qed.
Lemma struct_later hB h' s e : extends hB h' -> struct_at h hB (low hB) s e -> struct_at h h' (low hB) s e. Proof. apply struct_extends. Qed.
Lemma call_radial_bem elec mag cur fb b samples : eff_ok h 16 2 elec -> eff_ok h 16 2 mag -> eff_ok h 12 3 cur -> bounds_at h (low h) (data_as_double fb) b ->
  trace_blocks fuel inner blk (field_radial_traceable (mkbem FieldRadialBEM (line_eff h elec) (line_eff h mag) (triangle_eff h cur) b)) bounds atol true 0 (mkstate x v) = Ok samples ->
  returns_trajectory h (tracer_radial_bem fuel inner blk elec mag cur fb tb position velocity atol) samples.
Proof.
  intros Oe Om Oc Ob H. apply returns_trajectory_wp. unfold tracer_radial_bem. apply with_velocity. intros vel h1 E1 Vv. unfold trace_particle_radial_py.
  apply (wp_struct h h1 N_QUAD_2D 2); [exact Oe|exact E1|]. intros es h2 E2 Ses. assert (E02 : extends h h2) by (eapply extends_trans; eassumption).
  apply (wp_struct h h2 N_QUAD_2D 2); [exact Om|exact E02|]. intros ms h3 E3 Sms. assert (E03 : extends h h3) by (eapply extends_trans; eassumption).
  apply (wp_struct h h3 N_TRIANGLE_QUAD 3); [exact Oc|exact E03|]. intros cs h4 E4 Scs. assert (E04 : extends h h4) by (eapply extends_trans; eassumption). assert (E24 : extends h2 h4) by (eapply extends_trans; eassumption).
  match type of H with trace_blocks _ _ _ ?F _ _ _ _ _ = _ => apply (wrapper_call h4 F (fun run => run (c_field_radial_traceable es ms cs (data_as_double fb))) samples v vel E04) end.
  - eapply vector_extends; [|exact Vv]. eapply extends_trans; eassumption.
  - intros hh nT nP run Q Eh LT LP Hr. apply Hr; [apply extends_refl|].
    apply (implements_radial h hh _ (low h4) (disjoint h4 hh nT nP Eh ltac:(lia) ltac:(lia)) elec mag cur es ms cs _ b Oe Om Oc).
    + apply (struct_low h h2 h4 hh _ _ E24). eapply struct_extends; [eapply extends_trans; [exact E24|exact Eh]|exact Ses].
    + apply (struct_low h h3 h4 hh _ _ E4). eapply struct_extends; [eapply extends_trans; [exact E4|exact Eh]|exact Sms].
    + apply (struct_extends h h4 hh _ _ Eh Scs).
    + apply (bounds_low h h4 hh _ _ E04). apply (bounds_extends h h); [exact (extends_trans _ _ _ E04 Eh)|exact Ob].
  - exact H.
Qed.
Lemma call_3d_bem elec mag f samples : eff_ok h 12 3 elec -> eff_ok h 12 3 mag -> b_elec f = triangle_eff h elec -> b_mag f = triangle_eff h mag ->
  trace_blocks fuel inner blk (field_3d_traceable None f) bounds atol true 0 (mkstate x v) = Ok samples ->
  returns_trajectory h (tracer_3d_bem fuel inner blk elec mag tb position velocity atol) samples.
Proof.
  intros Oe Om Fe Fm H. apply returns_trajectory_wp. unfold tracer_3d_bem. apply with_velocity. intros vel h1 E1 Vv. unfold trace_particle_3d_py. apply wp_assert; [reflexivity|].
  apply (wp_struct h h1 N_TRIANGLE_QUAD 3); [exact Oe|exact E1|]. intros es h2 E2 Ses. assert (E02 : extends h h2) by (eapply extends_trans; eassumption).
  apply (wp_struct h h2 N_TRIANGLE_QUAD 3); [exact Om|exact E02|]. intros ms h3 E3 Sms. assert (E03 : extends h h3) by (eapply extends_trans; eassumption).
  match type of H with trace_blocks _ _ _ ?F _ _ _ _ _ = _ => apply (wrapper_call h3 F (fun run => run (c_field_3d_traceable es ms (data_as_double None))) samples v vel E03) end.
  - eapply vector_extends; [|exact Vv]. eapply extends_trans; eassumption.
  - intros hh nT nP run Q Eh LT LP Hr. apply Hr; [apply extends_refl|].
    apply (implements_3d h hh _ (low h3) (disjoint h3 hh nT nP Eh ltac:(lia) ltac:(lia)) elec mag es ms _ None Oe Om); [| |exact I|exact Fe|exact Fm].
    + apply (struct_low h h2 h3 hh _ _ E3). eapply struct_extends; [eapply extends_trans; [exact E3|exact Eh]|exact Ses].
    + apply (struct_extends h h3 hh _ _ Eh Sms).
  - exact H.
Qed.
Lemma call_radial_axial junk z elec mag N_z samples : floats h z [N_z] -> floats h elec [(N_z - 1)%nat; 9%nat; 6%nat] -> floats h mag [(N_z - 1)%nat; 9%nat; 6%nat] -> (1 <= N_z)%nat ->
  trace_blocks fuel inner blk (field_radial_derivs_traceable (mkaxial (BackendSeries.samples h z) (table h elec) (table h mag))) bounds atol true 0 (mkstate x v) = Ok samples ->
  returns_trajectory h (tracer_radial_axial junk fuel inner blk z elec mag tb position velocity atol) samples.
Proof.
  intros Fz Fe Fm N1 H. pose proof Fz as (Az & Sz & Tz). pose proof Fe as (Ae & Se & Te). pose proof Fm as (Am & Sm & Tm). apply returns_trajectory_wp. unfold tracer_radial_axial. apply with_velocity. intros vel h1 E1 Vv. unfold trace_particle_radial_derivs_py.
  eapply wp_len; [exact Sz|]. apply wp_assert; [by_one N_z|]. apply wp_assert; [by_one N_z|].
  match type of H with trace_blocks _ _ _ ?F _ _ _ _ _ = _ => apply (wrapper_call h1 F (fun run => zp <~ pass (arr 1) z ;; e <~ pass (arr 3) elec ;; m <~ pass (arr 3) mag ;; run (c_field_radial_derivs_traceable junk zp e m N_z)) samples v vel E1 Vv) end; [|exact H].
  intros hh nT nP run Q Eh LT LP Hr. assert (E0h : extends h hh) by (eapply extends_trans; eassumption). pose proof (extends_length _ _ E1) as L1.
  apply (wp_pass h hh _ z Float64); [exact Az|exact E0h|unfold accepts, arr; rewrite Sz, Tz; reflexivity|exact Tz|]. intros zp h2 E2 Bz Pz.
  assert (E02 : extends h h2) by (eapply extends_trans; eassumption). apply (wp_pass h h2 _ elec Float64); [exact Ae|exact E02|unfold accepts, arr; rewrite Se, Te; reflexivity|exact Te|]. intros ep h3 E3 Be Pe.
  assert (E03 : extends h h3) by (eapply extends_trans; eassumption). apply (wp_pass h h3 _ mag Float64); [exact Am|exact E03|unfold accepts, arr; rewrite Sm, Tm; reflexivity|exact Tm|]. intros mp h4 E4 Bm Pm.
  assert (E24 : extends h2 h4) by (eapply extends_trans; eassumption). pose proof (extends_length _ _ E2). pose proof (extends_length _ _ E3). unfold apart in *.
  apply Hr; [eapply extends_trans; eassumption|].
  apply (implements_radial_derivs h h4 _ (fun i => i <> nT /\ i <> nP)) with (z := z) (elec := elec) (mag := mag); try assumption; cbv beta; try lia.
  - exact (extends_block _ _ _ _ _ E24 Bz).
  - exact (extends_block _ _ _ _ _ E4 Be).
Qed.
Lemma block_low hh p t c : block hh p t c -> (0 < length c)%nat -> (p_buffer p < length hh)%nat.
Proof. intros B L. apply (load_buffer t p 0 hh (nth 0 c 0)). exact (B 0%nat L). Qed.
Lemma call_3d_axial junk z elec mag N_z samples : floats h z [N_z] -> floats h elec [(N_z - 1)%nat; 2%nat; NU_MAX; M_MAX; 4%nat] -> floats h mag [(N_z - 1)%nat; 2%nat; NU_MAX; M_MAX; 4%nat] -> (2 <= N_z)%nat ->
  trace_blocks fuel inner blk (field_3d_derivs_traceable (BackendSeries.samples h z) (table3d h elec) (table3d h mag)) bounds atol true 0 (mkstate x v) = Ok samples ->
  returns_trajectory h (tracer_3d_axial junk fuel inner blk z elec mag tb position velocity atol) samples.
Proof.
  intros Fz Fe Fm N1 H. pose proof Fz as (Az & Sz & Tz). pose proof Fe as (Ae & Se & Te). pose proof Fm as (Am & Sm & Tm). apply returns_trajectory_wp. unfold tracer_3d_axial. apply with_velocity. intros vel h1 E1 Vv. unfold trace_particle_3d_derivs_py.
  eapply wp_len; [exact Sz|]. apply wp_assert; [by_one N_z|]. apply wp_assert; [by_one N_z|].
  match type of H with trace_blocks _ _ _ ?F _ _ _ _ _ = _ => apply (wrapper_call h1 F (fun run => zp <~ pass (arr 1) z ;; e <~ pass (arr 5) elec ;; m <~ pass (arr 5) mag ;; run (c_field_3d_derivs_traceable junk zp e m N_z)) samples v vel E1 Vv) end; [|exact H].
  intros hh nT nP run Q Eh LT LP Hr. assert (E0h : extends h hh) by (eapply extends_trans; eassumption). pose proof (extends_length _ _ E1) as L1.
  apply (wp_pass h hh _ z Float64); [exact Az|exact E0h|unfold accepts, arr; rewrite Sz, Tz; reflexivity|exact Tz|]. intros zp h2 E2 Bz Pz.
  assert (E02 : extends h h2) by (eapply extends_trans; eassumption). apply (wp_pass h h2 _ elec Float64); [exact Ae|exact E02|unfold accepts, arr; rewrite Se, Te; reflexivity|exact Te|]. intros ep h3 E3 Be Pe.
  assert (E03 : extends h h3) by (eapply extends_trans; eassumption). apply (wp_pass h h3 _ mag Float64); [exact Am|exact E03|unfold accepts, arr; rewrite Sm, Tm; reflexivity|exact Tm|]. intros mp h4 E4 Bm Pm.
  assert (E24 : extends h2 h4) by (eapply extends_trans; eassumption). pose proof (extends_length _ _ E2). pose proof (extends_length _ _ E3). unfold apart in *.
  assert (Bz4 : at_ h z h4 zp) by exact (extends_block _ _ _ _ _ E24 Bz). assert (Be4 : at_ h elec h4 ep) by exact (extends_block _ _ _ _ _ E4 Be).
  assert (Lz : (p_buffer zp < length h4)%nat) by (apply (block_low h4 zp Float64 _ Bz4); rewrite contents_length, Sz; cbn; lia).
  assert (Le : (p_buffer ep < length h4)%nat) by (apply (block_low h4 ep Float64 _ Be4); rewrite contents_length, Se; cbn -[Nat.mul]; unfold NU_MAX, M_MAX; lia).
  assert (Lm : (p_buffer mp < length h4)%nat) by (apply (block_low h4 mp Float64 _ Bm); rewrite contents_length, Sm; cbn -[Nat.mul]; unfold NU_MAX, M_MAX; lia).
  apply Hr; [eapply extends_trans; eassumption|].
  apply (implements_3d_derivs h h4 _ (fun i => i <> nT /\ i <> nP /\ (i < length h4)%nat)) with (z := z) (elec := elec) (mag := mag); try assumption; cbv beta; try lia.
Qed.
End Calls.
