(** A trace through a field that is defined everywhere never faults: if TracingModel gives an error, so does the call, and it is the same one. *)
From Coq Require Import Reals Lra.
From Verif Require Import Base BaseFacts Vec GeomModel MemModel FieldModel SeriesModel Axial3DModel DispatchModel TracingModel MemFacts BackendModel BackendSafe BackendValues BackendCalls BackendReturns BackendTables BackendBuffers BackendSeries BackendSeries3D TraceMemModel TraceMemSpec TraceMemFacts TraceMemBlocks TraceMemFields TraceMemCalls.
Local Open Scope R_scope.
Local Open Scope mem_scope.

Definition total (F : field_fun) : Prop := forall s, exists v, F s = Ok v.
Lemma bind_err {A B} (m : result A) (f : A -> result B) e : bind m f = Err e -> m = Err e \/ exists a, m = Ok a /\ f a = Err e.
Proof. destruct m as [a|e']; cbn; intros H; [right; now exists a|left; congruence]. Qed.
Lemma bnd_raises {A B} (m : M A) (f : A -> M B) h e : m h = Raises e -> bnd m f h = Raises e.
Proof. intros E. unfold bnd. now rewrite E. Qed.
Lemma stages_total F h y : total F -> forall bs ks, exists ks', stages F h y bs ks = Ok ks'.
Proof.
  intros T. induction bs as [|b bs IH]; intros ks; cbn [stages]; [eexists; reflexivity|]. unfold produce_new_k. destruct (T (accumulate y b ks)) as (v & Hv). rewrite Hv. cbn [bind]. apply IH.
Qed.
Section Loop.
Variables (h0 : heap) (nT nP blk : nat) (f : c_field_fun) (F : field_fun).
Notation D := (fun i => i = nT \/ i = nP).
Hypothesis HF : implements h0 D f F.
Hypothesis TF : total F.
Hypothesis NE : nT <> nP.
Hypothesis BT : (nT < length h0)%nat.
Hypothesis BP : (nP < length h0)%nat.
Lemma loop_raises bounds atol hmax e : forall fuel N t y h hh l, frame D h0 hh -> holds hh nT nP blk (l ++ [(t, y)]) -> N = (length l + 1)%nat -> (N < blk)%nat ->
  trace_loop fuel blk F bounds atol hmax N t y h = Err e -> c_trace_loop fuel blk (mkptr nT 0) (mkptr nP 0) f bounds atol hmax N y h hh = Raises e.
Proof.
  induction fuel as [|fuel IH]; intros N t y h hh l Fr Ho HN Hb H; [injection H as <-; reflexivity|]. cbn [trace_loop c_trace_loop] in *. destruct (within bounds (s_pos y)); [|discriminate].
  destruct (stages_total F h y TF [[]; B2; B3; B4; B5; B6] []) as (ks & Hk). unfold rk_stages in H. rewrite Hk in H. cbn [bind] in H.
  destruct (stages_refine h0 D f F HF h y _ _ _ hh Fr Hk) as (h1 & R1 & E1). rewrite (bnd_done _ _ _ _ _ R1). cbv zeta in *.
  assert (Fr1 : frame D h0 h1) by (eapply frame_trans; [exact Fr|now apply extends_frame]). pose proof (holds_extends _ _ _ _ _ _ Ho E1) as Ho1.
  destruct (Rle_dec (step_error h ks) atol) as [Le|Gt]; [|now apply (IH N t y _ h1 l)].
  destruct (store_sample h1 nT nP blk l t y (t + h) (step_state y ks) h N NE Ho1 HN Hb eq_refl) as (h2 & R2 & Fr2 & Ho2). rewrite (bnd_done _ _ _ _ _ R2).
  destruct (Nat.eqb_spec (N + 1) blk) as [Eb|Nb]; [discriminate|]. apply bind_err in H. destruct H as [H|(r & _ & H)]; [|discriminate].
  apply (IH (N + 1)%nat (t + h) (step_state y ks) _ h2 (l ++ [(t, y)])); [eapply frame_trans; eassumption|exact Ho2|rewrite app_length; cbn; lia|lia|exact H].
Qed.
Lemma particle_raises fuel b bounds atol t y e hh : frame D h0 hh -> holds hh nT nP blk [(t, y)] -> (2 <= blk)%nat ->
  block hh b Float64 [vx (b_lo bounds); vx (b_hi bounds); vy (b_lo bounds); vy (b_hi bounds); vz (b_lo bounds); vz (b_hi bounds)] ->
  trace_particle fuel blk F bounds atol t y = Err e -> c_trace_particle fuel blk (mkptr nT 0) (mkptr nP 0) f b atol hh = Raises e.
Proof.
  intros Fr Ho Hb B H. unfold trace_particle in H. unfold c_trace_particle. rewrite (bnd_done _ _ _ _ _ (ld_state_cells h0 nT nP blk NE BT BP hh t y Ho ltac:(lia))).
  assert (L : forall i, (i < 6)%nat -> ld b i hh = Done (nth i [vx (b_lo bounds); vx (b_hi bounds); vy (b_lo bounds); vy (b_hi bounds); vz (b_lo bounds); vz (b_hi bounds)] 0) hh) by (intros i Hi; apply B; exact Hi).
  rewrite (bnd_done _ _ _ _ _ (L 0%nat ltac:(lia))), (bnd_done _ _ _ _ _ (L 1%nat ltac:(lia))), (bnd_done _ _ _ _ _ (L 2%nat ltac:(lia))), (bnd_done _ _ _ _ _ (L 3%nat ltac:(lia))), (bnd_done _ _ _ _ _ (L 4%nat ltac:(lia))), (bnd_done _ _ _ _ _ (L 5%nat ltac:(lia))).
  cbn [nth]. destruct (Req_EM_T (norm (s_vel y)) 0); [injection H as <-; reflexivity|]. apply bind_err in H. destruct H as [H|(r & _ & H)]; [|discriminate].
  pose proof (loop_raises bounds atol _ e fuel 1 t y _ hh [] Fr Ho eq_refl ltac:(lia) H) as R. destruct bounds as [[a0 a1 a2] [b0 b1 b2]]. exact R.
Qed.
End Loop.
(** the existential form of [wp] *)
Lemma wp_get {A} h (m : M A) Q : wp h (bnd m ret) Q -> exists a h', m h = Done a h' /\ Q a h'.
Proof. intros (a & h' & E & HQ). unfold bnd, ret in E. destruct (m h) as [a' h''| | |] eqn:Em; try discriminate. injection E as -> ->. now exists a, h'. Qed.
Section Blocks.
Variables (h0 : heap) (inner blk : nat) (F : field_fun) (bounds : box) (atol : R) (fill : ndarray -> ndarray -> M nat).
Hypothesis HFill : fills h0 inner blk F bounds atol fill.
Definition fails : Prop := forall hh nT nP t y e, extends h0 hh -> (length h0 <= nT < length hh)%nat -> (length h0 <= nP < length hh)%nat -> nT <> nP ->
  holds hh nT nP blk [(t, y)] -> trace_particle inner blk F bounds atol t y = Err e -> fill (view nT 0 [blk]) (view nP 0 [blk; 6%nat]) hh = Raises e.
Hypothesis HFails : fails.
Hypothesis Hblk : (2 <= blk)%nat.
Lemma blocks_raise e : forall fuel Ts Ps first nT nP t y hh, extends h0 hh -> (length h0 <= nT < length hh)%nat -> (length h0 <= nP < length hh)%nat -> nT <> nP ->
  holds hh nT nP blk [(t, y)] -> first = (match Ps with [] => true | _ => false end) -> trace_blocks fuel inner blk F bounds atol first t y = Err e ->
  trace_blocks_py fuel blk fill Ts Ps (view nT 0 [blk]) (view nP 0 [blk; 6%nat]) hh = Raises e.
Proof.
  induction fuel as [|fuel IH]; intros Ts Ps first nT nP t y hh E0 BT BP NE Ho Hfirst H; [injection H as <-; reflexivity|]. cbn [trace_blocks trace_blocks_py] in *.
  apply bind_err in H. destruct H as [H|(samples & Hs & H)]; [apply bnd_raises; now apply (HFails hh nT nP t y)|].
  destruct (HFill hh nT nP t y samples E0 BT BP NE Ho Hs) as (h1 & R1 & Fr1 & Ho1 & L1). rewrite (bnd_done _ _ _ _ _ R1). cbv zeta in *.
  set (from := match Ps with [] => 0%nat | _ :: _ => 1%nat end) in *. set (kept := if first then samples else tl samples) in *.
  assert (K : kept = skipn from samples) by (unfold kept, from; subst first; destruct Ps; [reflexivity|destruct samples; reflexivity]).
  assert (E1 : extends h0 h1) by (eapply (frame_extends h0 blk Hblk); [exact E0|exact Fr1|cbv beta; intros i [->| ->]; lia]).
  destruct (kept_views h1 nT nP blk samples from Ho1 ltac:(lia) ltac:(unfold from; destruct Ps; lia)) as [VT VP]. rewrite <- K in VT, VP.
  destruct (Nat.eqb_spec (length samples) blk) as [Eb|Nb]; cbn [negb]; [|discriminate].
  assert (Kl : (1 <= length kept)%nat) by (rewrite K, skipn_length; unfold from; destruct Ps; lia).
  apply bind_err in H. destruct H as [H|([tf yf] & Hf & H)].
  { exfalso. unfold np_get in H. destruct (nth_error kept (length kept - 1)) eqn:En; [discriminate|]. apply nth_error_None in En. lia. }
  cbn [fst snd] in H. apply bind_err in H. destruct H as [H|(r & _ & H)]; [|discriminate]. apply np_get_ok in Hf.
  set (P := slice (view nP 0 [blk; 6%nat]) from (length samples)) in *. set (T := slice (view nT 0 [blk]) from (length samples)) in *.
  destruct (new_block h0 blk Hblk h1 tf yf E1) as (Z1 & Z2 & SR & ST & X2 & X4 & Ho4 & _ & L4 & L3 & X3). cbv zeta in *.
  set (h2 := (h1 ++ _) ++ _) in *. set (h3 := put h2 _ _) in *. set (h4 := put h3 _ _) in *.
  rewrite (bnd_done _ _ _ _ _ Z1), (bnd_done _ _ _ _ _ Z2).
  assert (LR : last_row P h2 = Done (vals yf) h2).
  { pose proof (is_array_extends _ _ _ _ _ X2 VP) as VP2. unfold last_row. rewrite (proj1 (proj2 VP2)). destruct (length kept) as [|n] eqn:El; [lia|]. f_equal.
    rewrite <- (map_nth_arange (vals yf) 6 eq_refl) at 1. apply map_ext_in. intros i Hi. apply in_arange in Hi.
    rewrite (array_item2 _ _ _ _ _ n i VP2) by lia. apply nth_flat_vals; [|exact Hi]. rewrite nth_error_map. replace (S n - 1)%nat with n in Hf by lia. now rewrite Hf. }
  rewrite (bnd_done _ _ _ _ _ LR), (bnd_done _ _ _ _ _ SR).
  assert (LI : last_item T h3 = Done tf h3).
  { pose proof (is_array_extends _ _ _ _ _ X3 VT) as VT3. unfold last_item. rewrite (proj1 (proj2 VT3)). destruct (length kept) as [|n] eqn:El; [lia|]. f_equal.
    rewrite (array_item1 _ _ _ _ n VT3) by lia. replace (S n - 1)%nat with n in Hf by lia. apply nth_error_nth. rewrite nth_error_map. now rewrite Hf. }
  rewrite (bnd_done _ _ _ _ _ LI), (bnd_done _ _ _ _ _ ST).
  pose proof (extends_length _ _ E1) as LE1. assert (E4 : extends h0 h4) by (eapply extends_trans; eassumption).
  apply (IH (Ts ++ [T]) (Ps ++ [P]) false (length h1) (S (length h1)) tf yf h4 E4); [lia|lia|lia|exact Ho4|destruct Ps; reflexivity|exact H].
Qed.
Lemma wrapper_raises fuel position velocity x v e hh : extends h0 hh -> array_ok hh position -> array_ok hh velocity -> nd_shape position = [3%nat] -> nd_shape velocity = [3%nat] ->
  contents hh position = [vx x; vy x; vz x] -> contents hh velocity = [vx v; vy v; vz v] ->
  trace_blocks fuel inner blk F bounds atol true 0 (mkstate x v) = Err e -> trace_particle_wrapper_py fuel blk position velocity fill hh = Raises e.
Proof.
  intros E0 Ap Av Sp Sv Cp Cv H. unfold trace_particle_wrapper_py. unfold has_shape. rewrite Sp, Sv. change (shape_eqb [3%nat] [3%nat]) with true. cbn [andb assertM].
  destruct (new_block h0 blk Hblk hh 0 (mkstate x v) E0) as (Z1 & Z2 & SR & _ & X2 & _ & _ & Ho & _ & L3 & X3). cbv zeta in *. set (h2 := (hh ++ _) ++ _) in *. set (h3 := put h2 _ _) in *.
  erewrite bnd_done by reflexivity. rewrite (bnd_done _ _ _ _ _ Z1), (bnd_done _ _ _ _ _ Z2).
  erewrite bnd_done by (cbv beta; rewrite (extends_contents _ _ _ X2 Ap), (extends_contents _ _ _ X2 Av), Cp, Cv; reflexivity).
  change ([vx x; vy x; vz x] ++ [vx v; vy v; vz v]) with (vals (mkstate x v)). rewrite (bnd_done _ _ _ _ _ SR).
  pose proof (extends_length _ _ E0) as LE. assert (E3 : extends h0 h3) by (eapply extends_trans; eassumption).
  apply bnd_raises. apply (blocks_raise e fuel [] [] true (length hh) (S (length hh)) 0 (mkstate x v) h3 E3); [lia|lia|lia|exact Ho|reflexivity|exact H].
Qed.
End Blocks.
(** ** Calls *)
Section Calls.
Variables (h : heap) (fuel inner blk : nat) (tb position velocity : ndarray) (bounds : box) (x w : vec3) (atol : R).
Hypothesis Hblk : (2 <= blk)%nat.
Hypothesis Hb : box_at h tb bounds.
Hypothesis Hx : vector_at h position x.
Hypothesis Hw : vector_at h velocity w.
Lemma fails_makes hB F f : extends h hB -> total F -> (forall hh nT nP, extends hB hh -> (length hB <= nT < length hh)%nat -> (length hB <= nP < length hh)%nat -> implements hh (fun i => i = nT \/ i = nP) f F) ->
  fails hB inner blk F bounds atol (fun T P => pass_blocks blk T P tb (fun t p b => c_trace_particle inner blk t p f b atol)).
Proof.
  intros EAB TF Hk hh nT nP t y e E BT BP NE Ho H. destruct Hb as [(Ab & Sb & Tb) Cb]. unfold pass_blocks. rewrite (bnd_done _ _ _ _ _ (pass_view [blk] nT hh)), (bnd_done _ _ _ _ _ (pass_view [blk; 6%nat] nP hh)).
  destruct (wp_get hh (pass (ByShape [3%nat; 2%nat] Float64) tb) (fun p h' => extends hh h' /\ block h' p Float64 (contents h tb))) as (b & h1 & R & E1 & Bb).
  { apply (wp_pass h hh _ tb Float64); [exact Ab|eapply extends_trans; eassumption|unfold accepts, has_shape; rewrite Sb, Tb; reflexivity|exact Tb|]. intros p h1 E1 B1 _. apply wp_ret. split; assumption. }
  rewrite (bnd_done _ _ _ _ _ R). rewrite Cb in Bb. pose proof (extends_length _ _ E1) as L1.
  apply (particle_raises h1 nT nP blk f F) with (bounds := bounds) (t := t) (y := y); try assumption; try lia; [apply Hk; [eapply extends_trans; eassumption|lia|lia]|apply frame_refl|eapply holds_extends; eassumption].
Qed.
Lemma wrapper_outcome hB F f e v vel : extends h hB -> vector_at hB vel v -> total F ->
  (forall hh nT nP, extends hB hh -> (length hB <= nT < length hh)%nat -> (length hB <= nP < length hh)%nat -> implements hh (fun i => i = nT \/ i = nP) f F) ->
  trace_blocks fuel inner blk F bounds atol true 0 (mkstate x v) = Err e ->
  trace_particle_wrapper_py fuel blk position vel (fun T P => pass_blocks blk T P tb (fun t p b => c_trace_particle inner blk t p f b atol)) hB = Raises e.
Proof.
  intros E (Av & Sv & Cv) TF Im H. pose proof (fails_makes hB F f E TF Im) as Fa. destruct Hb as [Fb Cb].
  assert (Mk : makes hB F (fun run => run f)) by (intros hh nT nP run Q Eh LT LP Hr; apply Hr; [apply extends_refl|now apply Im]).
  pose proof (fills_makes h hB inner blk F tb bounds atol E Fb Cb Hblk _ Mk) as Fi. pose proof (vector_extends _ _ _ _ E Hx) as (Ap & Sp & Cp).
  exact (wrapper_raises hB inner blk F bounds atol _ Fi Fa Hblk fuel position vel x v e hB (extends_refl _) Ap Av Sp Sv Cp Cv H).
Qed.
Lemma velocity_err e : convert_velocity_to_SI w = Err e -> convert_velocity_py velocity h = Raises e.
Proof.
  destruct Hw as (A & S & C). intros H. unfold convert_velocity_py. unfold has_shape. rewrite S. change (shape_eqb [3%nat] [3%nat]) with true. cbv iota.
  rewrite <- (nth_contents1 h velocity 3 0), <- (nth_contents1 h velocity 3 1), <- (nth_contents1 h velocity 3 2) by (assumption || lia). rewrite C. cbn [nth]. replace (V3 (vx w) (vy w) (vz w)) with w by (destruct w; reflexivity). now rewrite H.
Qed.
Definition call (F : field_fun) : result (list sample) := v <- convert_velocity_to_SI w ;; trace_blocks fuel inner blk F bounds atol true 0 (mkstate x v).
Lemma outcome_radial_bem elec mag cur fb b : eff_ok h 16 2 elec -> eff_ok h 16 2 mag -> eff_ok h 12 3 cur -> bounds_at h (low h) (data_as_double fb) b ->
  outcome_of h (tracer_radial_bem fuel inner blk elec mag cur fb tb position velocity atol) (call (field_radial_traceable (mkbem FieldRadialBEM (line_eff h elec) (line_eff h mag) (triangle_eff h cur) b))).
Proof.
  intros Oe Om Oc Ob. set (F := field_radial_traceable _). unfold call. destruct (convert_velocity_to_SI w) as [v|e] eqn:Ev; cbn [bind outcome_of].
  2:{ unfold tracer_radial_bem. apply bnd_raises. now apply velocity_err. }
  destruct (trace_blocks fuel inner blk F bounds atol true 0 (mkstate x v)) as [samples|e] eqn:Et; cbn [outcome_of].
  - apply (call_radial_bem h fuel inner blk tb position velocity bounds x v atol Hblk Hb Hx (ex_intro _ w (conj Hw Ev)) elec mag cur fb b); assumption.
  - destruct (converted h blk v Hblk w velocity h (extends_refl h) Hw Ev) as (vel & R & Hvel). unfold tracer_radial_bem. rewrite (bnd_done _ _ _ _ _ R). set (h1 := h ++ _) in *. assert (E1 : extends h h1) by apply extends_new.
    unfold trace_particle_radial_py.
    destruct (wp_get h1 (new_struct N_QUAD_2D elec) (fun s h' => extends h1 h' /\ struct_at h h' (low h') s elec)) as (es & h2 & R2 & E2 & S2). { apply (wp_struct h h1 _ 2); [exact Oe|exact E1|]. intros. apply wp_ret. now split. }
    rewrite (bnd_done _ _ _ _ _ R2). assert (E02 : extends h h2) by exact (extends_trans _ _ _ E1 E2).
    destruct (wp_get h2 (new_struct N_QUAD_2D mag) (fun s h' => extends h2 h' /\ struct_at h h' (low h') s mag)) as (ms & h3 & R3 & E3 & S3). { apply (wp_struct h h2 _ 2); [exact Om|exact E02|]. intros. apply wp_ret. now split. }
    rewrite (bnd_done _ _ _ _ _ R3). assert (E03 : extends h h3) by exact (extends_trans _ _ _ E02 E3).
    destruct (wp_get h3 (new_struct N_TRIANGLE_QUAD cur) (fun s h' => extends h3 h' /\ struct_at h h' (low h') s cur)) as (cs & h4 & R4 & E4 & S4). { apply (wp_struct h h3 _ 3); [exact Oc|exact E03|]. intros. apply wp_ret. now split. }
    rewrite (bnd_done _ _ _ _ _ R4). assert (E04 : extends h h4) by exact (extends_trans _ _ _ E03 E4). assert (E24 : extends h2 h4) by exact (extends_trans _ _ _ E3 E4).
    apply (wrapper_outcome h4 F (c_field_radial_traceable es ms cs (data_as_double fb)) e v vel E04).
    + eapply vector_extends; [|exact Hvel]. exact (extends_trans _ _ _ E2 E24).
    + intros s. eexists. reflexivity.
    + intros hh nT nP Eh LT LP. apply (implements_radial h hh _ (low h4) (disjoint blk Hblk h4 hh nT nP Eh ltac:(lia) ltac:(lia)) elec mag cur es ms cs _ b Oe Om Oc).
      * apply (struct_low h h2 h4 hh _ _ E24). eapply struct_extends; [exact (extends_trans _ _ _ E24 Eh)|exact S2].
      * apply (struct_low h h3 h4 hh _ _ E4). eapply struct_extends; [exact (extends_trans _ _ _ E4 Eh)|exact S3].
      * apply (struct_extends h h4 hh _ _ Eh S4).
      * apply (bounds_low h h4 hh _ _ E04). apply (bounds_extends h h); [exact (extends_trans _ _ _ E04 Eh)|exact Ob].
    + exact Et.
Qed.
Lemma outcome_3d_bem elec mag f : eff_ok h 12 3 elec -> eff_ok h 12 3 mag -> b_elec f = triangle_eff h elec -> b_mag f = triangle_eff h mag ->
  outcome_of h (tracer_3d_bem fuel inner blk elec mag tb position velocity atol) (call (field_3d_traceable None f)).
Proof.
  intros Oe Om Fe Fm. set (F := field_3d_traceable _ _). unfold call. destruct (convert_velocity_to_SI w) as [v|e] eqn:Ev; cbn [bind outcome_of].
  2:{ unfold tracer_3d_bem. apply bnd_raises. now apply velocity_err. }
  destruct (trace_blocks fuel inner blk F bounds atol true 0 (mkstate x v)) as [samples|e] eqn:Et; cbn [outcome_of].
  - apply (call_3d_bem h fuel inner blk tb position velocity bounds x v atol Hblk Hb Hx (ex_intro _ w (conj Hw Ev)) elec mag f); assumption.
  - destruct (converted h blk v Hblk w velocity h (extends_refl h) Hw Ev) as (vel & R & Hvel). unfold tracer_3d_bem. rewrite (bnd_done _ _ _ _ _ R). set (h1 := h ++ _) in *. assert (E1 : extends h h1) by apply extends_new.
    unfold trace_particle_3d_py. erewrite bnd_done by reflexivity.
    destruct (wp_get h1 (new_struct N_TRIANGLE_QUAD elec) (fun s h' => extends h1 h' /\ struct_at h h' (low h') s elec)) as (es & h2 & R2 & E2 & S2). { apply (wp_struct h h1 _ 3); [exact Oe|exact E1|]. intros. apply wp_ret. now split. }
    rewrite (bnd_done _ _ _ _ _ R2). assert (E02 : extends h h2) by exact (extends_trans _ _ _ E1 E2).
    destruct (wp_get h2 (new_struct N_TRIANGLE_QUAD mag) (fun s h' => extends h2 h' /\ struct_at h h' (low h') s mag)) as (ms & h3 & R3 & E3 & S3). { apply (wp_struct h h2 _ 3); [exact Om|exact E02|]. intros. apply wp_ret. now split. }
    rewrite (bnd_done _ _ _ _ _ R3). assert (E03 : extends h h3) by exact (extends_trans _ _ _ E02 E3).
    apply (wrapper_outcome h3 F (c_field_3d_traceable es ms (data_as_double None)) e v vel E03).
    + eapply vector_extends; [|exact Hvel]. exact (extends_trans _ _ _ E2 E3).
    + intros s. eexists. reflexivity.
    + intros hh nT nP Eh LT LP. apply (implements_3d h hh _ (low h3) (disjoint blk Hblk h3 hh nT nP Eh ltac:(lia) ltac:(lia)) elec mag es ms _ None Oe Om); [| |exact I|exact Fe|exact Fm].
      * apply (struct_low h h2 h3 hh _ _ E3). eapply struct_extends; [exact (extends_trans _ _ _ E3 Eh)|exact S2].
      * apply (struct_extends h h3 hh _ _ Eh S3).
    + exact Et.
Qed.
End Calls.
