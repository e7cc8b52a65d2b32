(** Facts about the Runge-Kutta-Fehlberg step and the trajectories. *)
From Coq Require Import Reals Lra Lia Psatz.
From Verif Require Import Base BaseFacts Vec GeomModel FieldModel SeriesModel DispatchModel TracingModel.
Local Open Scope R_scope.

Lemma state_eq a b : s_pos a = s_pos b -> s_vel a = s_vel b -> a = b.
Proof. destruct a, b; cbn; intros -> ->; reflexivity. Qed.
Ltac state_ring := apply state_eq; apply vec_eq; cbn; ring.
Ltac destruct_states := repeat match goal with s : state |- _ => let p := fresh "p" in let v := fresh "v" in destruct s as [p v]; destruct p, v end.
Lemma sadd_comm a b : sadd a b = sadd b a. Proof. state_ring. Qed.
Lemma sadd_assoc a b c : sadd a (sadd b c) = sadd (sadd a b) c. Proof. state_ring. Qed.
Lemma sadd_zero_r a : sadd a szero = a. Proof. destruct_states. state_ring. Qed.
Lemma sadd_zero_l a : sadd szero a = a. Proof. destruct_states. state_ring. Qed.
Lemma sscale_add k a b : sscale k (sadd a b) = sadd (sscale k a) (sscale k b). Proof. state_ring. Qed.
Lemma sscale_mul k l a : sscale k (sscale l a) = sscale (k * l) a. Proof. state_ring. Qed.
Lemma sscale_plus k l a : sscale (k + l) a = sadd (sscale k a) (sscale l a). Proof. state_ring. Qed.
Lemma sscale_zero a : sscale 0 a = szero. Proof. state_ring. Qed.
Lemma sscale_one a : sscale 1 a = a. Proof. destruct_states. state_ring. Qed.

(** ** Polynomials in a linear map, applied to a state *)
Record linear_map (L : state -> state) : Prop := { lin_add : forall a b, L (sadd a b) = sadd (L a) (L b); lin_scale : forall k a, L (sscale k a) = sscale k (L a) }.
Fixpoint poly_in (L : state -> state) (g : state) (c : list R) : state :=
  match c with [] => szero | c0 :: c => sadd (sscale c0 g) (L (poly_in L g c)) end.
Fixpoint ladd (a b : list R) : list R := match a, b with [], b => b | a, [] => a | x :: a, y :: b => x + y :: ladd a b end.
Definition lscale (k : R) (a : list R) : list R := map (Rmult k) a.
Section Linear.
  Variable L : state -> state.
  Hypothesis HL : linear_map L.
  Variable g : state.
  Lemma lin_zero : L szero = szero.
  Proof. rewrite <- (sscale_zero szero), (lin_scale L HL), !sscale_zero. reflexivity. Qed.
  Lemma poly_add a : forall b, poly_in L g (ladd a b) = sadd (poly_in L g a) (poly_in L g b).
  Proof.
    induction a as [|x a IH]; intros b; [cbn; rewrite sadd_zero_l; reflexivity|]. destruct b as [|y b]; [cbn [ladd poly_in]; rewrite sadd_zero_r; reflexivity|].
    cbn [ladd poly_in]. rewrite IH, (lin_add L HL), sscale_plus. state_ring.
  Qed.
  Lemma poly_scale k a : poly_in L g (lscale k a) = sscale k (poly_in L g a).
  Proof.
    induction a as [|x a IH]; cbn [lscale map poly_in].
    - state_ring.
    - change (map (Rmult k) a) with (lscale k a). rewrite IH, (lin_scale L HL), sscale_add, sscale_mul. reflexivity.
  Qed.
  Lemma accumulate_poly y : forall c ps q, accumulate (sadd y (poly_in L g q)) c (map (poly_in L g) ps) =
    sadd y (poly_in L g (fold_left (fun acc cp => ladd acc (lscale (fst cp) (snd cp))) (combine c ps) q)).
  Proof.
    induction c as [|c0 c IH]; intros [|p ps] q; try reflexivity. unfold accumulate in *. cbn [map combine fold_left fst snd].
    rewrite <- poly_scale, <- sadd_assoc, <- poly_add. apply IH.
  Qed.
  Definition lcomb (c : list R) (ps : list (list R)) : list R := fold_left (fun acc cp => ladd acc (lscale (fst cp) (snd cp))) (combine c ps) [].
  Lemma accumulate_poly0 y c ps : accumulate y c (map (poly_in L g) ps) = sadd y (poly_in L g (lcomb c ps)).
  Proof. rewrite <- (sadd_zero_r y) at 1. change szero with (poly_in L g []). apply accumulate_poly. Qed.
  (** the stages for an affine right-hand side *)
  Variable field : field_fun.
  Variable y : state.
  Hypothesis Hg : forall d, exists f, field (sadd y d) = Ok f /\ mkstate (s_vel (sadd y d)) (vscale EM f) = sadd g (L d).
  Lemma stages_poly h : forall bs ps, stages field h y bs (map (poly_in L g) ps) =
    Ok (map (poly_in L g) (fold_left (fun ps b => ps ++ [lscale h (1 :: lcomb b ps)]) bs ps)).
  Proof.
    induction bs as [|b bs IH]; intros ps; [reflexivity|]. cbn [stages fold_left]. rewrite accumulate_poly0. unfold produce_new_k.
    destruct (Hg (poly_in L g (lcomb b ps))) as (f & Hf & Ek). rewrite Hf. cbn [bind].
    replace (mkstate (vscale h (s_vel (sadd y (poly_in L g (lcomb b ps))))) (vscale (h * EM) f)) with (poly_in L g (lscale h (1 :: lcomb b ps))).
    - change [poly_in L g (lscale h (1 :: lcomb b ps))] with (map (poly_in L g) [lscale h (1 :: lcomb b ps)]). rewrite <- map_app. apply IH.
    - rewrite poly_scale. cbn [poly_in]. rewrite sscale_one, <- Ek. state_ring.
  Qed.
  Definition stage_polys (h : R) : list (list R) := fold_left (fun ps b => ps ++ [lscale h (1 :: lcomb b ps)]) [[]; B2; B3; B4; B5; B6] [].
  Lemma rk_stages_poly h : rk_stages field h y = Ok (map (poly_in L g) (stage_polys h)).
  Proof. exact (stages_poly h _ []). Qed.
End Linear.
Lemma list_cons_eq (a b : R) (l m : list R) : a = b -> l = m -> a :: l = b :: m.
Proof. congruence. Qed.

Ltac poly_compute := unfold lcomb, stage_polys, CH, CT, B2, B3, B4, B5, B6; cbn [fold_left combine app lcomb ladd lscale map fst snd];
  unfold lcomb; cbn [fold_left combine app ladd lscale map fst snd]; repeat (apply list_cons_eq; [field|]); reflexivity.
Lemma CH_polys h : lcomb CH (stage_polys h) = [h; h ^ 2 / 2; h ^ 3 / 6; h ^ 4 / 24; h ^ 5 / 120; h ^ 6 / 960].
Proof. poly_compute. Qed.
Lemma CT_polys h : lcomb CT (stage_polys h) = [0; 0; 0; 0; - h ^ 5 / 480; h ^ 6 / 960].
Proof. poly_compute. Qed.
Fixpoint iterate (L : state -> state) (n : nat) (g : state) : state := match n with O => g | S n => L (iterate L n g) end.
(** ** Uniform force *)
Definition uniform (F : vec3) : field_fun := fun _ => Ok F.
Definition drift (d : state) : state := mkstate (s_vel d) vzero.
Lemma drift_linear : linear_map drift.
Proof. split; intros; state_ring. Qed.
Lemma uniform_stages F h y : rk_stages (uniform F) h y = Ok (map (poly_in drift (mkstate (s_vel y) (vscale EM F))) (stage_polys h)).
Proof.
  apply rk_stages_poly; [exact drift_linear|]. intros d. exists F. split; [reflexivity|]. state_ring.
Qed.
Lemma uniform_poly y F c : poly_in drift (mkstate (s_vel y) (vscale EM F)) c =
  mkstate (vadd (vscale (nth 0 c 0) (s_vel y)) (vscale (nth 1 c 0) (vscale EM F))) (vscale (nth 0 c 0) (vscale EM F)).
Proof.
  set (E := vscale EM F). destruct c as [|a [|b c]]; cbn [poly_in nth].
  - state_ring.
  - unfold drift at 1. state_ring.
  - assert (Q : drift (drift (poly_in drift (mkstate (s_vel y) E) c)) = szero) by reflexivity.
    rewrite (lin_add _ drift_linear), (lin_scale _ drift_linear), Q. state_ring.
Qed.
Lemma uniform_step F h y : exists ks, rk_stages (uniform F) h y = Ok ks /\ step_error h ks = 0 /\
  step_state y ks = mkstate (vadd (vadd (s_pos y) (vscale h (s_vel y))) (vscale (h ^ 2 / 2) (vscale EM F))) (vadd (s_vel y) (vscale h (vscale EM F))).
Proof.
  eexists. split; [apply uniform_stages|]. unfold step_error, step_state. rewrite !(accumulate_poly0 _ drift_linear), CH_polys, CT_polys, !uniform_poly. cbn [nth]. split.
  - unfold sadd, szero, max_abs, vadd, vscale, vzero. cbn [s_pos s_vel vx vy vz]. rewrite !Rmult_0_l, !Rplus_0_r, !Rabs_R0. assert (M : Rmax 0 0 = 0) by (apply Rmax_left; lra). rewrite !M. ring.
  - state_ring.
Qed.

(** ** Trajectories *)
Lemma leb_true a b : leb a b = true <-> a <= b.
Proof. unfold leb. destruct (Rle_dec a b); split; intros; try discriminate; auto; contradiction. Qed.
Lemma ltb_true a b : ltb a b = true <-> a < b.
Proof. unfold ltb. destruct (Rlt_dec a b); split; intros; try discriminate; auto; contradiction. Qed.
Lemma max_abs_nonneg v : 0 <= max_abs v.
Proof. unfold max_abs. apply Rle_trans with (Rabs (vz v)); [apply Rabs_pos|apply Rmax_r]. Qed.
Lemma next_step_range h hmax atol error : 0 < h -> 0 < hmax -> 0 < atol -> 0 <= error -> 0 < next_step h hmax atol error <= hmax.
Proof.
  intros H1 H2 H3 H4. unfold next_step. destruct (Req_EM_T error 0) as [|N]; [lra|].
  assert (Q : 0 < atol / error) by (apply Rdiv_lt_0_compat; lra). destruct (Rlt_dec (atol / error) 0); [lra|]. destruct (Req_EM_T (atol / error) 0); [lra|].
  split; [|apply Rmin_r]. apply Rmin_glb_lt; [|assumption]. apply Rmult_lt_0_compat; [lra|]. unfold Rpower. apply exp_pos.
Qed.
Definition one_step (field : field_fun) (atol h : R) (y y' : state) : Prop :=
  exists ks, rk_stages field h y = Ok ks /\ step_error h ks <= atol /\ y' = step_state y ks.
(** what the loop guarantees between two consecutive samples *)
Definition next_sample (field : field_fun) (bounds : box) (atol hmax : R) (a b : sample) : Prop :=
  within bounds (s_pos (snd a)) = true /\ fst a < fst b /\ fst b - fst a <= hmax /\ one_step field atol (fst b - fst a) (snd a) (snd b).
Definition linked (P : nat -> sample -> sample -> Prop) (l : list sample) : Prop :=
  forall k a b, nth_error l k = Some a -> nth_error l (S k) = Some b -> P k a b.
Lemma linked_cons (P : nat -> sample -> sample -> Prop) a l : (forall b, nth_error l 0 = Some b -> P 0%nat a b) -> linked (fun k => P (S k)) l -> linked P (a :: l).
Proof. intros H0 H k x y Hx Hy. destruct k as [|k]; cbn in *; [injection Hx as <-; apply H0; exact Hy|exact (H k x y Hx Hy)]. Qed.
Lemma last_cons {A} (l : list A) : forall a d, last (a :: l) d = last l a.
Proof. induction l as [|b l IH]; intros a d; [reflexivity|]. change (last (a :: b :: l) d) with (last (b :: l) d). rewrite !IH. reflexivity. Qed.
Lemma trace_loop_spec block field bounds atol hmax : 0 < atol -> 0 < hmax -> forall fuel N t y h rest,
  trace_loop fuel block field bounds atol hmax N t y h = Ok rest -> (N < block)%nat -> 0 < h <= hmax ->
  linked (fun _ => next_sample field bounds atol hmax) ((t, y) :: rest) /\ (N + length rest <= block)%nat /\
  ((N + length rest < block)%nat -> within bounds (s_pos (snd (last rest (t, y)))) = false).
Proof.
  intros Ha Hm. induction fuel as [|fuel IH]; intros N t y h rest H HN Hh; [discriminate|]. cbn [trace_loop] in H.
  destruct (within bounds (s_pos y)) eqn:W.
  2:{ injection H as <-. split; [|split; [cbn; lia|intros _; exact W]]. apply linked_cons; [intros b Hb; discriminate|]. intros k a b Hk. destruct k; discriminate. }
  apply bind_ok in H. destruct H as (ks & Hk & H). cbv zeta in H.
  assert (He : 0 <= step_error h ks). { unfold step_error. pose proof (max_abs_nonneg (s_pos (accumulate szero CT ks))). pose proof (max_abs_nonneg (s_vel (accumulate szero CT ks))). cbv zeta. nra. }
  pose proof (next_step_range h hmax atol (step_error h ks) (proj1 Hh) Hm Ha He) as Hn.
  destruct (Rle_dec (step_error h ks) atol) as [A|A].
  - assert (S1 : next_sample field bounds atol hmax (t, y) (t + h, step_state y ks)).
    { unfold next_sample. cbn [fst snd]. replace (t + h - t) with h by ring. split; [exact W|]. split; [lra|]. split; [lra|]. exists ks. auto. }
    destruct (Nat.eqb_spec (N + 1) block) as [B|B].
    + injection H as <-. split; [|split; [cbn; lia|intros Hlt; cbn in Hlt; lia]]. apply linked_cons; [intros b Hb; injection Hb as <-; exact S1|].
      apply linked_cons; [intros b Hb; discriminate|]. intros k a b Hk'. destruct k; discriminate.
    + apply bind_ok in H. destruct H as (rest' & Hr & H). injection H as <-.
      destruct (IH _ _ _ _ _ Hr ltac:(lia) Hn) as (I1 & I2 & I3). split; [|split].
      * apply linked_cons; [intros b Hb; injection Hb as <-; exact S1|exact I1].
      * cbn. lia.
      * intros Hlt. cbn [length] in Hlt. rewrite last_cons. apply I3. lia.
  - exact (IH _ _ _ _ _ H HN Hn).
Qed.
Lemma norm_pos v : norm v <> 0 -> 0 < norm v.
Proof. intros H. pose proof (norm_nonneg v). lra. Qed.
Lemma trace_particle_spec fuel block field bounds atol t y samples : 0 < atol -> (2 <= block)%nat ->
  trace_particle fuel block field bounds atol t y = Ok samples ->
  norm (s_vel y) <> 0 /\ linked (fun _ => next_sample field bounds atol (TRACING_STEP_MAX / norm (s_vel y))) samples /\ hd_error samples = Some (t, y) /\
  (length samples <= block)%nat /\ ((length samples < block)%nat -> within bounds (s_pos (snd (last samples (t, y)))) = false).
Proof.
  intros Ha Hb H. unfold trace_particle in H. destruct (Req_EM_T (norm (s_vel y)) 0) as [|N]; [discriminate|]. apply bind_ok in H. destruct H as (rest & Hr & H). injection H as <-.
  assert (P : 0 < TRACING_STEP_MAX / norm (s_vel y)). { apply Rdiv_lt_0_compat; [unfold TRACING_STEP_MAX; lra|apply norm_pos; exact N]. }
  destruct (trace_loop_spec _ _ _ _ _ Ha P _ _ _ _ _ _ Hr ltac:(lia) ltac:(lra)) as (L1 & L2 & L3).
  split; [exact N|]. split; [exact L1|]. split; [reflexivity|]. split; [cbn; lia|]. intros Hlt. cbn [length] in Hlt. rewrite last_cons. apply L3. lia.
Qed.

(** Blocks: block number [k / (block - 1)] starts at sample [k / (block - 1) * (block - 1)]. *)
Lemma last_nth {A} (l : list A) d x : np_get l (length l - 1) = Ok x -> last l d = x.
Proof.
  rewrite np_get_ok. induction l as [|a l IH]; [discriminate|]. destruct l as [|b l]; cbn [length]; intros H; [cbn in H; injection H as ->; reflexivity|].
  cbn [last]. apply IH. cbn [length Nat.sub] in *. rewrite Nat.sub_0_r. exact H.
Qed.
Definition hmax_at (samples : list sample) (j : nat) : R := match nth_error samples j with Some s => TRACING_STEP_MAX / norm (s_vel (snd s)) | None => 0 end.
Definition block_start (block k : nat) : nat := (k / (block - 1) * (block - 1))%nat.
Lemma block_start_0 block k : (k < block - 1)%nat -> block_start block k = 0%nat.
Proof. intros H. unfold block_start. rewrite Nat.div_small by assumption. reflexivity. Qed.
Lemma block_start_shift block k : (2 <= block)%nat -> block_start block (k + (block - 1)) = (block_start block k + (block - 1))%nat.
Proof. intros H. unfold block_start. replace (k + (block - 1))%nat with (k + 1 * (block - 1))%nat by lia. rewrite Nat.div_add by lia. lia. Qed.
Lemma trace_blocks_spec field bounds atol block inner : 0 < atol -> (2 <= block)%nat -> forall fuel first t y kept,
  trace_blocks fuel inner block field bounds atol first t y = Ok kept ->
  exists samples, kept = (if first then samples else tl samples) /\ hd_error samples = Some (t, y) /\
    linked (fun k => next_sample field bounds atol (hmax_at samples (block_start block k))) samples /\
    within bounds (s_pos (snd (last samples (t, y)))) = false.
Proof.
  intros Ha Hb. induction fuel as [|fuel IH]; intros first t y kept H; [discriminate|]. cbn [trace_blocks] in H.
  apply bind_ok in H. destruct H as (samples & Hs & H). cbv zeta in H. destruct (trace_particle_spec _ _ _ _ _ _ _ _ Ha Hb Hs) as (N & L & Hd & Len & Out).
  destruct samples as [|s0 rest]; [discriminate|]. cbn [hd_error] in Hd; injection Hd as ->.
  match type of H with context [(?n =? block)%nat] => destruct (Nat.eqb_spec n block) as [B|B] end.
  2:{ injection H as <-. exists ((t, y) :: rest). split; [reflexivity|]. split; [reflexivity|]. split; [|apply Out; lia].
      intros k a b Hk Hk'. rewrite block_start_0.
      - unfold hmax_at. cbn [nth_error snd]. exact (L k a b Hk Hk').
      - assert (S k < length ((t, y) :: rest))%nat by (apply nth_error_Some; rewrite Hk'; discriminate). lia. }
  apply bind_ok in H. destruct H as (final & Hf & H). apply bind_ok in H. destruct H as (more & Hm & H). injection H as <-.
  destruct (IH _ _ _ _ Hm) as (next & E & Hd & Ln & On). subst more. destruct next as [|n0 next]; [discriminate|]. cbn [hd_error] in Hd; injection Hd as ->. cbn [tl].
  assert (Ef : last ((t, y) :: rest) (t, y) = final /\ nth_error ((t, y) :: rest) (block - 1) = Some final).
  { assert (Hf' : np_get ((t, y) :: rest) (length ((t, y) :: rest) - 1) = Ok final).
    { destruct first; [exact Hf|]. apply np_get_ok. apply np_get_ok in Hf. cbn [tl length] in *. destruct rest as [|r0 rest]; [discriminate|]. cbn [length Nat.sub] in *. rewrite Nat.sub_0_r in Hf. exact Hf. }
    split; [apply (last_nth _ (t, y)); exact Hf'|]. apply np_get_ok in Hf'. rewrite B in Hf'. exact Hf'. }
  destruct Ef as [Ef1 Ef2]. exists (((t, y) :: rest) ++ next). split; [destruct first; reflexivity|]. split; [reflexivity|].
  assert (Len1 : length ((t, y) :: rest) = block) by exact B.
  (* the samples from the start of the second block on *)
  assert (Sh : forall k, nth_error (((t, y) :: rest) ++ next) (k + (block - 1)) = nth_error (final :: next) k).
  { intros [|k].
    - rewrite nth_error_app1 by lia. exact Ef2.
    - rewrite nth_error_app2 by lia. rewrite Len1. replace (S k + (block - 1) - block)%nat with k by lia. reflexivity. }
  replace (fst final, snd final) with final in * by (destruct final; reflexivity).
  split.
  - intros k a b Hk Hk'. destruct (Nat.lt_ge_cases k (block - 1)) as [C|C].
    + rewrite block_start_0 by assumption. unfold hmax_at. cbn [app nth_error snd]. apply (L k a b).
      * rewrite nth_error_app1 in Hk by lia. exact Hk.
      * rewrite nth_error_app1 in Hk' by lia. exact Hk'.
    + replace k with ((k - (block - 1)) + (block - 1))%nat in * by lia. set (j := (k - (block - 1))%nat) in *. clearbody j.
      rewrite block_start_shift by assumption. rewrite Sh in Hk. rewrite <- Nat.add_succ_l, Sh in Hk'.
      assert (Em : hmax_at (((t, y) :: rest) ++ next) (block_start block j + (block - 1)) = hmax_at (final :: next) (block_start block j)) by (unfold hmax_at; rewrite Sh; reflexivity).
      rewrite Em. exact (Ln j a b Hk Hk').
  - assert (El : forall (l m : list sample) d, last (l ++ m) d = last m (last l d)).
    { intros l m d. revert d. induction l as [|u l IHl]; intros d; [reflexivity|]. cbn [app]. rewrite !last_cons. apply IHl. }
    rewrite El, Ef1. rewrite last_cons in On. exact On.
Qed.
