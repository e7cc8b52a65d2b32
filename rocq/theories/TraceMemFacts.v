(** The C loop of the tracer refines TracingModel. *)
From Coq Require Import Reals Lra.
From Verif Require Import Base BaseFacts Vec GeomModel MemModel FieldModel SeriesModel Axial3DModel TracingModel MemFacts BackendModel BackendSafe BackendValues BackendCalls BackendReturns BackendTables BackendBuffers TraceMemModel.
Local Open Scope R_scope.
Local Open Scope mem_scope.

(** memory that existed before is unchanged, except for some buffers *)
Definition frame (D : nat -> Prop) (h hh : heap) : Prop := (length h <= length hh)%nat /\ forall i, (i < length h)%nat -> ~ D i -> nth_error hh i = nth_error h i.
Lemma frame_refl D h : frame D h h. Proof. split; [lia|reflexivity]. Qed.
Lemma frame_trans D a b c : frame D a b -> frame D b c -> frame D a c.
Proof. intros [L1 H1] [L2 H2]. split; [lia|]. intros i Hi Di. rewrite H2 by (lia || assumption). now apply H1. Qed.
Lemma extends_frame D h hh : extends h hh -> frame D h hh.
Proof. intros (e & ->). split; [rewrite app_length; lia|]. intros i Hi _. now rewrite nth_error_app1. Qed.
Lemma load_buffer t p i h x : load t p i h = Done x h -> (p_buffer p < length h)%nat.
Proof. unfold load. destruct (nth_error h (p_buffer p)) eqn:E; [|discriminate]. intros _. apply nth_error_Some. congruence. Qed.
Lemma frame_block D h hh p t c : frame D h hh -> ~ D (p_buffer p) -> block h p t c -> block hh p t c.
Proof.
  intros [L H] N B i Hi. specialize (B i Hi). pose proof (load_buffer _ _ _ _ _ B) as P. unfold load in *. rewrite H by assumption.
  destruct (nth_error h (p_buffer p)) as [b|]; [|discriminate]. destruct (_ && _); [|discriminate]. destruct (nth_error (b_cells b) _); [|discriminate]. injection B as ->. reflexivity.
Qed.
Lemma put_app h e n c : (n < length h)%nat -> put (h ++ e) n c = put h n c ++ e.
Proof. unfold put. revert n. induction h as [|b h IH]; intros [|n] H; cbn in *; try lia; [reflexivity|]. f_equal. apply IH. lia. Qed.
Lemma extends_put_both h hh n c : extends h hh -> (n < length h)%nat -> extends (put h n c) (put hh n c).
Proof. intros (e & ->) H. exists e. now apply put_app. Qed.
Lemma put_frame (D : nat -> Prop) h n c : D n -> frame D h (put h n c).
Proof. intros H. split; [rewrite put_length; lia|]. intros i Hi Di. unfold put. apply nth_upd_other. intros ->. contradiction. Qed.
Lemma nth_buffer_block h n t cells : nth_error h n = Some (mkbuffer t cells) -> block h (mkptr n 0) t cells.
Proof. intros E i Hi. rewrite (load_in h (mkptr n 0) _ _ _ E); [cbn [p_offset b_cells]; repeat f_equal; lia|reflexivity|cbn; lia]. Qed.
Lemma block_firstn h p t c d : block h p t (c ++ d) -> block h p t c.
Proof. intros B i Hi. rewrite B by (rewrite app_length; lia). now rewrite app_nth1. Qed.

(** ** Fields *)
(** The C function [f] computes the force [F] whatever happened to the buffers in [D], and writes nothing but its result. *)
Definition implements (h : heap) (D : nat -> Prop) (f : c_field_fun) (F : field_fun) : Prop :=
  forall hh p n s v, frame D h hh -> block hh p Float64 (vals s) -> (length h <= p_buffer p)%nat -> (length h <= n)%nat -> n <> p_buffer p ->
    nth_error hh n = Some (mkbuffer Float64 [0; 0; 0]) -> F s = Ok v ->
    exists hh', f p (mkptr n 0) hh = Done tt hh' /\ extends (put hh n [vx v; vy v; vz v]) hh'.
Section Steps.
Variables (h0 : heap) (D : nat -> Prop) (f : c_field_fun) (F : field_fun).
Hypothesis HF : implements h0 D f F.
Lemma new_nth (h : heap) b : nth_error (h ++ [b]) (length h) = Some b.
Proof. rewrite nth_error_app2, Nat.sub_diag by lia. reflexivity. Qed.
Lemma produce_refines h ys k hh : frame D h0 hh -> produce_new_k F h ys = Ok k -> exists hh', c_produce_new_k f h ys hh = Done k hh' /\ extends hh hh'.
Proof.
  intros Fr H. unfold produce_new_k in H. apply bind_ok in H. destruct H as (v & Hv & H). injection H as <-.
  set (h1 := hh ++ [mkbuffer Float64 (vals ys)]). set (h2 := h1 ++ [mkbuffer Float64 [0; 0; 0]]).
  assert (L1 : length h1 = S (length hh)) by (unfold h1; rewrite app_length; cbn; lia).
  assert (E1 : extends hh h1) by apply extends_new. assert (E2 : extends h1 h2) by apply extends_new.
  pose proof (proj1 Fr) as LF.
  assert (B : block h2 (mkptr (length hh) 0) Float64 (vals ys)) by (apply nth_buffer_block; eapply extends_nth; [exact E2|]; apply new_nth).
  destruct (HF h2 (mkptr (length hh) 0) (length h1) ys v) as (h3 & R & E3).
  - eapply frame_trans; [exact Fr|]. apply extends_frame. eapply extends_trans; eassumption.
  - exact B.
  - cbn. lia.
  - lia.
  - cbn. lia.
  - apply new_nth.
  - exact Hv.
  - exists h3. split.
    + unfold c_produce_new_k. assert (A1 : local (vals ys) hh = Done (mkptr (length hh) 0) h1) by reflexivity. assert (A2 : local [0; 0; 0] h1 = Done (mkptr (length h1) 0) h2) by reflexivity.
      rewrite (bnd_done _ _ _ _ _ A1), (bnd_done _ _ _ _ _ A2), (bnd_done _ _ _ _ _ R).
      assert (Bv : block h3 (mkptr (length h1) 0) Float64 [vx v; vy v; vz v]).
      { eapply extends_block; [exact E3|]. apply nth_buffer_block. unfold put. apply nth_upd. unfold h2. rewrite app_length. cbn. lia. }
      rewrite (bnd_done _ _ _ _ _ (ld3_block0 h3 _ _ Bv ltac:(cbn; lia))). cbn [nth]. destruct v; reflexivity.
    + eapply extends_trans; [|exact E3]. apply extends_put; [eapply extends_trans; eassumption|lia].
Qed.
Lemma stages_refine h y : forall bs ks ks' hh, frame D h0 hh -> stages F h y bs ks = Ok ks' -> exists hh', c_stages f h y bs ks hh = Done ks' hh' /\ extends hh hh'.
Proof.
  induction bs as [|b bs IH]; intros ks ks' hh Fr H; cbn [stages c_stages] in *.
  - injection H as <-. exists hh. split; [reflexivity|apply extends_refl].
  - apply bind_ok in H. destruct H as (k & Hk & H). destruct (produce_refines h _ k hh Fr Hk) as (h1 & R1 & E1).
    destruct (IH _ _ h1 ltac:(eapply frame_trans; [exact Fr|now apply extends_frame]) H) as (h2 & R2 & E2).
    exists h2. split; [now rewrite (bnd_done _ _ _ _ _ R1)|eapply extends_trans; eassumption].
Qed.
End Steps.

(** ** The arrays of samples *)
Lemma firstn_upd_next {A} (l : list A) i x : (i < length l)%nat -> firstn (S i) (upd l i x) = firstn i l ++ [x].
Proof. revert i. induction l as [|a l IH]; intros [|i] H; cbn in *; try lia; [reflexivity|]. f_equal. apply IH. lia. Qed.
Lemma firstn_length_nth {A} (l m : list A) i d : firstn (length m) l = m -> (i < length m)%nat -> nth i l d = nth i m d.
Proof. intros E H. rewrite <- (firstn_skipn (length m) l), E. now rewrite app_nth1. Qed.
Definition holds (hh : heap) (nT nP blk : nat) (l : list sample) : Prop :=
  exists ct cp, nth_error hh nT = Some (mkbuffer Float64 ct) /\ nth_error hh nP = Some (mkbuffer Float64 cp) /\ length ct = blk /\ length cp = (6 * blk)%nat /\
    firstn (length l) ct = map fst l /\ firstn (6 * length l) cp = flat_map vals (map snd l).
Lemma put_comm h n m c d : n <> m -> put (put h n c) m d = put (put h m d) n c.
Proof. unfold put. revert n m. induction h as [|b h IH]; intros [|n] [|m] H; cbn; try reflexivity; try lia. f_equal. apply IH. lia. Qed.
Lemma nth_put h n c : (n < length h)%nat -> nth_error (put h n c) n = Some (mkbuffer Float64 c). Proof. apply nth_upd. Qed.
Lemma nth_put_other h n m c : n <> m -> nth_error (put h n c) m = nth_error h m. Proof. apply nth_upd_other. Qed.
Lemma st_cell h n cells i v : nth_error h n = Some (mkbuffer Float64 cells) -> (i < length cells)%nat -> st (mkptr n 0) i v h = Done tt (put h n (upd cells i v)).
Proof. intros E Hi. assert (n < length h)%nat by (apply nth_error_Some; congruence). rewrite <- (put_same h n cells) at 1 by exact E. now rewrite st_put. Qed.
Lemma ld_cell h n cells i : nth_error h n = Some (mkbuffer Float64 cells) -> (i < length cells)%nat -> ld (mkptr n 0) i h = Done (nth i cells 0) h.
Proof. intros E Hi. unfold ld. rewrite (load_in h (mkptr n 0) _ _ _ E); [cbn [p_offset b_cells]; repeat f_equal; lia|reflexivity|cbn; lia]. Qed.
(** one pass through the loop of tracing.c:92-95 *)
Lemma store_once hh nT nP ct cp N i v t h : nT <> nP -> nth_error hh nT = Some (mkbuffer Float64 ct) -> nth_error hh nP = Some (mkbuffer Float64 cp) -> (1 <= N < length ct)%nat -> (i < length cp)%nat -> nth (N - 1) ct 0 = t ->
  (st (mkptr nP 0) i v ;;; x <~ ld (mkptr nT 0) (N - 1) ;; st (mkptr nT 0) N (x + h)) hh = Done tt (put (put hh nP (upd cp i v)) nT (upd ct N (t + h))).
Proof.
  intros Ne HT HP HN Hi <-. assert (nP < length hh)%nat by (apply nth_error_Some; congruence).
  rewrite (bnd_done _ _ _ _ _ (st_cell hh nP cp i v HP Hi)). assert (HT' : nth_error (put hh nP (upd cp i v)) nT = Some (mkbuffer Float64 ct)) by (rewrite nth_put_other by auto; exact HT).
  rewrite (bnd_done _ _ _ _ _ (ld_cell _ nT ct (N - 1) HT' ltac:(lia))). now rewrite (st_cell _ nT ct N _ HT' ltac:(lia)).
Qed.
Lemma store_sample hh nT nP blk l t y t' y' h N : nT <> nP -> holds hh nT nP blk (l ++ [(t, y)]) -> N = (length l + 1)%nat -> (N < blk)%nat -> t' = t + h ->
  exists hh', for_each 6 (fun i => st (mkptr nP 0) (6 * N + i) (nth i (vals y') 0) ;;; x <~ ld (mkptr nT 0) (N - 1) ;; st (mkptr nT 0) N (x + h)) hh = Done tt hh' /\
    frame (fun i => i = nT \/ i = nP) hh hh' /\ holds hh' nT nP blk ((l ++ [(t, y)]) ++ [(t', y')]).
Proof.
  intros Ne (ct & cp & HT & HP & LT & LP & FT & FP) -> HN ->. set (N := (length l + 1)%nat) in *.
  assert (L1 : length (l ++ [(t, y)]) = N) by (rewrite app_length; reflexivity). rewrite L1 in *.
  assert (Et : nth (N - 1) ct 0 = t).
  { assert (E : nth (N - 1) ct 0 = nth (N - 1) (map fst (l ++ [(t, y)])) 0). { apply firstn_length_nth; rewrite map_length, L1; [exact FT|lia]. }
    rewrite E, map_app, app_nth2 by (rewrite map_length; lia). rewrite map_length. replace (N - 1 - length l)%nat with 0%nat by lia. reflexivity. }
  assert (BT : (nT < length hh)%nat) by (apply nth_error_Some; congruence). assert (BP : (nP < length hh)%nat) by (apply nth_error_Some; congruence).
  set (ct' := upd ct N (t + h)). set (c i := fold_left (fun c j => upd c (6 * N + j) (nth j (vals y') 0)) (arange i) cp).
  assert (LC : forall i, length (c i) = (6 * blk)%nat).
  { intros i. unfold c. rewrite <- LP. generalize (arange i) cp. induction l0 as [|j js IH]; intros cp0; cbn; [reflexivity|]. now rewrite IH, upd_length. }
  assert (CS : forall i, c (S i) = upd (c i) (6 * N + i) (nth i (vals y') 0)) by (intros i; unfold c, arange; rewrite seq_S, fold_left_app; reflexivity).
  assert (CF : forall i, (i <= 6)%nat -> firstn (6 * N + i) (c i) = firstn (6 * N) cp ++ firstn i (vals y')).
  { induction i as [|i IH]; intros Hi; [rewrite Nat.add_0_r; cbn [c arange seq fold_left firstn]; now rewrite app_nil_r|].
    rewrite CS. replace (6 * N + S i)%nat with (S (6 * N + i)) by lia. rewrite firstn_upd_next by (rewrite LC; lia). rewrite IH by lia. rewrite <- app_assoc. f_equal.
    destruct i as [|[|[|[|[|[|i]]]]]]; try lia; reflexivity. }
  exists (put (put hh nP (c 6%nat)) nT ct'). split; [|split].
  - assert (G : forall k i, (0 < i)%nat -> (i + k = 6)%nat -> loop_from i k (fun i (_ : unit) => st (mkptr nP 0) (6 * N + i) (nth i (vals y') 0) ;;; x <~ ld (mkptr nT 0) (N - 1) ;; st (mkptr nT 0) N (x + h)) tt (put (put hh nP (c i)) nT ct')
        = Done tt (put (put hh nP (c 6%nat)) nT ct')).
    { induction k as [|k IH]; intros i Hi Hk; [replace i with 6%nat by lia; reflexivity|]. cbn [loop_from].
      assert (S1 := store_once (put (put hh nP (c i)) nT ct') nT nP ct' (c i) N (6 * N + i) (nth i (vals y') 0) t h Ne).
      rewrite nth_put in S1 by (rewrite put_length; exact BT). rewrite nth_put_other, nth_put in S1 by (auto). unfold ct' in S1 at 3. rewrite upd_length, LC in S1.
      specialize (S1 eq_refl eq_refl ltac:(lia) ltac:(lia)). assert (Et' : nth (N - 1) ct' 0 = t) by (unfold ct'; rewrite nth_upd_list by lia; destruct (Nat.eqb_spec (N - 1) N); [lia|exact Et]).
      rewrite (bnd_done _ _ _ _ _ (S1 Et')). rewrite (put_comm (put hh nP (c i)) nT nP), put_put, <- CS by exact Ne. rewrite put_put. unfold ct' at 1. rewrite upd_upd. apply IH; lia. }
    unfold for_each, loop. change 6%nat with (S 5) at 3. cbn [loop_from].
    rewrite (bnd_done _ _ _ _ _ (store_once hh nT nP ct cp N (6 * N + 0) (nth 0 (vals y') 0) t h Ne HT HP ltac:(lia) ltac:(lia) Et)).
    change (upd cp (6 * N + 0) (nth 0 (vals y') 0)) with (c 1%nat). apply (G 5%nat 1%nat); lia.
  - eapply frame_trans; apply put_frame; auto.
  - exists ct', (c 6%nat). rewrite nth_put by (rewrite put_length; exact BT). rewrite nth_put_other, nth_put by auto. split; [reflexivity|]. split; [reflexivity|].
    split; [unfold ct'; now rewrite upd_length|]. split; [apply LC|]. rewrite app_length, L1. cbn [length]. rewrite !map_app, flat_map_app. cbn [map fst snd flat_map]. rewrite app_nil_r. split.
    + rewrite Nat.add_1_r. unfold ct'. rewrite firstn_upd_next by lia. rewrite FT, map_app. reflexivity.
    + replace (6 * (N + 1))%nat with (6 * N + 6)%nat by lia. rewrite CF by lia. rewrite FP, map_app, !flat_map_app. cbn. rewrite <- ?app_assoc. reflexivity.
Qed.

Section Loop.
Variables (h0 : heap) (nT nP blk : nat) (f : c_field_fun) (F : field_fun).
Notation D := (fun i => i = nT \/ i = nP).
Hypothesis HF : implements h0 D f F.
Hypothesis NE : nT <> nP.
Hypothesis BT : (nT < length h0)%nat.
Hypothesis BP : (nP < length h0)%nat.
Lemma holds_extends hh hh' l : holds hh nT nP blk l -> extends hh hh' -> holds hh' nT nP blk l.
Proof. intros (ct & cp & A & B & C) E. exists ct, cp. split; [eapply extends_nth; eassumption|]. split; [eapply extends_nth; eassumption|exact C]. Qed.
Lemma loop_refines bounds atol hmax : forall fuel N t y h hh l rest, frame D h0 hh -> holds hh nT nP blk (l ++ [(t, y)]) -> N = (length l + 1)%nat -> (N < blk)%nat ->
  trace_loop fuel blk F bounds atol hmax N t y h = Ok rest ->
  exists hh', c_trace_loop fuel blk (mkptr nT 0) (mkptr nP 0) f bounds atol hmax N y h hh = Done (N + length rest)%nat hh' /\ frame D h0 hh' /\ holds hh' nT nP blk ((l ++ [(t, y)]) ++ rest) /\ (N + length rest <= blk)%nat.
Proof.
  induction fuel as [|fuel IH]; intros N t y h hh l rest Fr Ho HN Hb H; [discriminate|]. cbn [trace_loop c_trace_loop] in *. destruct (within bounds (s_pos y)).
  2:{ injection H as <-. exists hh. cbn [length]. rewrite Nat.add_0_r, app_nil_r. split; [reflexivity|]. split; [exact Fr|]. split; [exact Ho|lia]. }
  apply bind_ok in H. destruct H as (ks & Hk & H). destruct (stages_refine h0 D f F HF h y _ _ _ hh Fr Hk) as (h1 & R1 & E1). rewrite (bnd_done _ _ _ _ _ R1). cbv zeta in *.
  assert (Fr1 : frame D h0 h1) by (eapply frame_trans; [exact Fr|now apply extends_frame]). pose proof (holds_extends _ _ _ Ho E1) as Ho1.
  destruct (Rle_dec (step_error h ks) atol) as [Le|Gt].
  2:{ now apply (IH N t y _ h1 l rest). }
  destruct (store_sample h1 nT nP blk l t y (t + h) (step_state y ks) h N NE Ho1 HN Hb eq_refl) as (h2 & R2 & Fr2 & Ho2). rewrite (bnd_done _ _ _ _ _ R2).
  assert (Fr3 : frame D h0 h2) by (eapply frame_trans; eassumption).
  destruct (Nat.eqb_spec (N + 1) blk) as [Eb|Nb].
  - injection H as <-. exists h2. split; [reflexivity|]. split; [exact Fr3|]. split; [exact Ho2|cbn; lia].
  - apply bind_ok in H. destruct H as (r & Hr & H). injection H as <-.
    destruct (IH (N + 1)%nat (t + h) (step_state y ks) _ h2 (l ++ [(t, y)]) r Fr3 Ho2 ltac:(rewrite app_length; cbn; lia) ltac:(lia) Hr) as (h3 & R3 & Fr4 & Ho3 & L3).
    exists h3. split; [rewrite R3; f_equal; cbn [length]; lia|]. split; [exact Fr4|]. split; [|cbn [length]; lia]. rewrite <- app_assoc in Ho3. exact Ho3.
Qed.
Lemma ld_state_cells hh t y : holds hh nT nP blk [(t, y)] -> (1 <= blk)%nat -> ld_state (mkptr nP 0) hh = Done y hh.
Proof.
  intros (ct & cp & HT & HP & LT & LP & FT & FP) Hb. cbn [length Nat.mul Nat.add map fst snd flat_map] in FP. rewrite app_nil_r in FP.
  assert (E : forall i, (i < 6)%nat -> nth i cp 0 = nth i (vals y) 0) by (intros i Hi; apply firstn_length_nth; [exact FP|exact Hi]).
  unfold ld_state. pose proof (nth_buffer_block _ _ _ _ HP) as B. rewrite (bnd_done _ _ _ _ _ (ld3_block0 hh _ _ B ltac:(lia))). rewrite (bnd_done _ _ _ _ _ (ld3_block hh _ _ 3 B ltac:(lia))).
  cbn [Nat.add]. rewrite !E by lia. destruct y as [[] []]. reflexivity.
Qed.
(** The C function trace_particle: times\[0\] and positions\[0\] hold the first sample. *)
Lemma particle_refines fuel b bounds atol t y samples hh : frame D h0 hh -> holds hh nT nP blk [(t, y)] -> (2 <= blk)%nat ->
  block hh b Float64 [vx (b_lo bounds); vx (b_hi bounds); vy (b_lo bounds); vy (b_hi bounds); vz (b_lo bounds); vz (b_hi bounds)] ->
  trace_particle fuel blk F bounds atol t y = Ok samples ->
  exists hh', c_trace_particle fuel blk (mkptr nT 0) (mkptr nP 0) f b atol hh = Done (length samples) hh' /\ frame D h0 hh' /\ holds hh' nT nP blk samples /\ (1 <= length samples <= blk)%nat.
Proof.
  intros Fr Ho Hb B H. unfold trace_particle in H. unfold c_trace_particle. rewrite (bnd_done _ _ _ _ _ (ld_state_cells hh t y Ho ltac:(lia))).
  assert (L : forall i, (i < 6)%nat -> ld b i hh = Done (nth i [vx (b_lo bounds); vx (b_hi bounds); vy (b_lo bounds); vy (b_hi bounds); vz (b_lo bounds); vz (b_hi bounds)] 0) hh) by (intros i Hi; apply B; exact Hi).
  rewrite (bnd_done _ _ _ _ _ (L 0%nat ltac:(lia))), (bnd_done _ _ _ _ _ (L 1%nat ltac:(lia))), (bnd_done _ _ _ _ _ (L 2%nat ltac:(lia))), (bnd_done _ _ _ _ _ (L 3%nat ltac:(lia))), (bnd_done _ _ _ _ _ (L 4%nat ltac:(lia))), (bnd_done _ _ _ _ _ (L 5%nat ltac:(lia))).
  cbn [nth]. destruct (Req_EM_T (norm (s_vel y)) 0); [discriminate|]. apply bind_ok in H. destruct H as (rest & Hr & H). injection H as <-.
  destruct (loop_refines bounds atol _ fuel 1 t y _ hh [] rest Fr Ho eq_refl ltac:(lia) Hr) as (h1 & R & Fr1 & Ho1 & L1).
  exists h1. split; [|split; [exact Fr1|split; [exact Ho1|cbn [length]; lia]]].
  destruct bounds as [[a0 a1 a2] [b0 b1 b2]]. cbn [b_lo b_hi vx vy vz] in *. exact R.
Qed.
End Loop.
