(** Forces given by expressions satisfy the smoothness condition of [ConvSpec]. *)
From Coq Require Import Reals Lra Lia Psatz.
From Coquelicot Require Import Coquelicot.
From Verif Require Import Base BaseFacts Vec TracingModel TracingFacts ConvSpec ConvFacts ConvStep ExprSpec ExprFacts SeriesFacts.
Local Open Scope R_scope.

(** Symmetric parts of multilinear maps *)
Definition sym2 (P : state -> state -> state) a b : state := sscale (/ 2) (sadd (P a b) (P b a)).
Definition sym3 (P : state -> state -> state -> state) a b c : state := sscale (/ 3) (sadd (sym2 (P a) b c) (sadd (sym2 (P b) a c) (sym2 (P c) a b))).
Definition sym4 (P : state -> state -> state -> state -> state) a b c d : state :=
  sscale (/ 4) (sadd (sym3 (P a) b c d) (sadd (sym3 (P b) a c d) (sadd (sym3 (P c) a b d) (sym3 (P d) a b c)))).
Lemma sym2_swap P a b : sym2 P a b = sym2 P b a.
Proof. unfold sym2. rewrite sadd_comm. reflexivity. Qed.
Lemma sym3_swap12 P a b c : sym3 P a b c = sym3 P b a c.
Proof. unfold sym3. rewrite (sym2_swap (P c) b a). rewrite !sadd_assoc, (sadd_comm (sym2 (P a) b c)). reflexivity. Qed.
Lemma sym3_swap23 P a b c : sym3 P a b c = sym3 P a c b.
Proof. unfold sym3. rewrite (sym2_swap (P a) c b), (sadd_comm (sym2 (P c) a b)). reflexivity. Qed.
Lemma sym4_swap12 P a b c d : sym4 P a b c d = sym4 P b a c d.
Proof. unfold sym4. rewrite (sym3_swap12 (P c) b a d), (sym3_swap12 (P d) b a c). rewrite !sadd_assoc, (sadd_comm (sym3 (P a) b c d)). reflexivity. Qed.
Lemma sym4_swap23 P a b c d : sym4 P a b c d = sym4 P a c b d.
Proof. unfold sym4. rewrite (sym3_swap12 (P a) c b d), (sym3_swap23 (P d) a c b). f_equal. f_equal. rewrite !sadd_assoc, (sadd_comm (sym3 (P b) a c d)). reflexivity. Qed.
Lemma sym4_swap34 P a b c d : sym4 P a b c d = sym4 P a b d c.
Proof. unfold sym4. rewrite (sym3_swap23 (P a) b d c), (sym3_swap23 (P b) a d c). rewrite (sadd_comm (sym3 (P c) a b d)). reflexivity. Qed.
Lemma lm_add L L' : linear_map L -> linear_map L' -> linear_map (fun x => sadd (L x) (L' x)).
Proof.
  intros [A B] [A' B']. split; intros; [rewrite A, A'|rewrite B, B', sscale_add; reflexivity].
  generalize (L a) (L b) (L' a) (L' b). intros x y z w. state_ring.
Qed.
Lemma lm_scale k L : linear_map L -> linear_map (fun x => sscale k (L x)).
Proof. intros [A B]. split; intros; [rewrite A, sscale_add; reflexivity|rewrite B, !sscale_mul, Rmult_comm; reflexivity]. Qed.
Lemma sym2_linear (P : state -> state -> state) b : linear_map (P b) -> linear_map (fun x => P x b) -> linear_map (sym2 P b).
Proof. intros A B. unfold sym2. apply lm_scale. apply lm_add; assumption. Qed.
Lemma sym2_linear1 (Q : state -> state -> state -> state) a b : linear_map (fun x => Q x a b) -> linear_map (fun x => Q x b a) -> linear_map (fun x => sym2 (Q x) a b).
Proof. intros A B. unfold sym2. apply lm_scale. apply lm_add; assumption. Qed.
Lemma sym3_linear P b c : (forall a b, linear_map (fun x => P x a b)) -> (forall a b, linear_map (fun x => P a x b)) -> (forall a b, linear_map (fun x => P a b x)) -> linear_map (sym3 P b c).
Proof.
  intros A B C. unfold sym3. apply lm_scale. apply lm_add; [apply sym2_linear; [apply C|apply (B b c)]|]. apply lm_add; [apply sym2_linear; [apply C|apply (B c b)]|].
  apply sym2_linear1; apply A.
Qed.
Lemma sym3_linear1 (Q : state -> state -> state -> state -> state) a b c : (forall a b c, linear_map (fun x => Q x a b c)) -> linear_map (fun x => sym3 (Q x) a b c).
Proof. intros A. unfold sym3, sym2. apply lm_scale. repeat apply lm_add; apply lm_scale; apply lm_add; apply A. Qed.
Lemma sym4_linear P b c d : (forall a b c, linear_map (fun x => P x a b c)) -> (forall a b c, linear_map (fun x => P a x b c)) -> (forall a b c, linear_map (fun x => P a b x c)) -> (forall a b c, linear_map (fun x => P a b c x)) -> linear_map (sym4 P b c d).
Proof.
  intros A B C D. unfold sym4. apply lm_scale. apply lm_add; [apply (sym3_linear (P b)); auto|]. apply lm_add; [apply (sym3_linear (P c)); auto|].
  apply lm_add; [apply (sym3_linear (P d)); auto|]. apply sym3_linear1; exact A.
Qed.
Lemma sym2_diag P a : sym2 P a a = P a a.
Proof. unfold sym2. generalize (P a a). intros x. destruct_states. apply state_eq; apply vec_eq; cbn; field. Qed.
Lemma sym3_diag P a : sym3 P a a a = P a a a.
Proof. unfold sym3. rewrite sym2_diag. generalize (P a a a). intros x. destruct_states. apply state_eq; apply vec_eq; cbn; field. Qed.
Lemma sym4_diag P a : sym4 P a a a a = P a a a a.
Proof. unfold sym4. rewrite sym3_diag. generalize (P a a a a). intros x. destruct_states. apply state_eq; apply vec_eq; cbn; field. Qed.
Lemma sym2_bound P a b B : snorm (P a b) <= B -> snorm (P b a) <= B -> snorm (sym2 P a b) <= B.
Proof. intros H1 H2. unfold sym2. rewrite snorm_scale, Rabs_pos_eq by lra. pose proof (snorm_add (P a b) (P b a)). lra. Qed.
Lemma sym3_bound P a b c B : (forall x y z, prodn [x; y; z] = prodn [a; b; c] -> snorm (P x y z) <= B) -> snorm (sym3 P a b c) <= B.
Proof.
  intros H. cbn [prodn] in H. unfold sym3. rewrite snorm_scale, Rabs_pos_eq by lra.
  assert (snorm (sym2 (P a) b c) <= B) by (apply sym2_bound; apply H; ring).
  assert (snorm (sym2 (P b) a c) <= B) by (apply sym2_bound; apply H; ring).
  assert (snorm (sym2 (P c) a b) <= B) by (apply sym2_bound; apply H; ring).
  pose proof (snorm_add (sym2 (P a) b c) (sadd (sym2 (P b) a c) (sym2 (P c) a b))). pose proof (snorm_add (sym2 (P b) a c) (sym2 (P c) a b)). lra.
Qed.
Lemma sym4_bound P a b c d B : (forall x y z w, prodn [x; y; z; w] = prodn [a; b; c; d] -> snorm (P x y z w) <= B) -> snorm (sym4 P a b c d) <= B.
Proof.
  intros H. cbn [prodn] in H. unfold sym4. rewrite snorm_scale, Rabs_pos_eq by lra.
  assert (Q : forall p q r s, snorm p * (snorm q * (snorm r * (snorm s * 1))) = snorm a * (snorm b * (snorm c * (snorm d * 1))) -> snorm (sym3 (P p) q r s) <= B).
  { intros p q r s E. apply sym3_bound. intros x y z E'. cbn [prodn] in E'. apply H. rewrite E'. exact E. }
  pose proof (Q a b c d ltac:(ring)). pose proof (Q b a c d ltac:(ring)). pose proof (Q c a b d ltac:(ring)). pose proof (Q d a b c ltac:(ring)).
  set (s1 := sym3 (P a) b c d) in *. set (s2 := sym3 (P b) a c d) in *. set (s3 := sym3 (P c) a b d) in *. set (s4 := sym3 (P d) a b c) in *.
  pose proof (snorm_add s1 (sadd s2 (sadd s3 s4))). pose proof (snorm_add s2 (sadd s3 s4)). pose proof (snorm_add s3 s4). lra.
Qed.

Section Smooth.
  Variables (field : field_fun) (u : R -> state) (T rho c : R) (ex ey ez : expr).
  Hypothesis Hc : 0 < c.
  Hypothesis Hrho : 0 < rho.
  Hypothesis HT : 0 <= T.
  Hypothesis Near : force_near field u T rho c ex ey ez.
  Hypothesis Sol : solves field T u.
  Definition rs (g : expr -> R) : state := mkstate (V3 (g (EVar 3)) (g (EVar 4)) (g (EVar 5))) (V3 (g (EMul (EConst EM) ex)) (g (EMul (EConst EM) ey)) (g (EMul (EConst EM) ez))).
  Definition TS (l : list state) (s : state) : state := rs (fun e => TT l e s).
  Lemma rs_ext g g' : (forall e, g e = g' e) -> rs g = rs g'.
  Proof. intros H. unfold rs. rewrite !H. reflexivity. Qed.
  Lemma TS_add l1 a b l2 s : TS (l1 ++ sadd a b :: l2) s = sadd (TS (l1 ++ a :: l2) s) (TS (l1 ++ b :: l2) s).
  Proof. unfold TS. rewrite (rs_ext _ _ (fun e => TT_add l1 a b l2 e s)). reflexivity. Qed.
  Lemma TS_scale l1 k a l2 s : TS (l1 ++ sscale k a :: l2) s = sscale k (TS (l1 ++ a :: l2) s).
  Proof. unfold TS. rewrite (rs_ext _ _ (fun e => TT_scale l1 k a l2 e s)). reflexivity. Qed.
  Lemma TS_linear l1 l2 s : linear_map (fun x => TS (l1 ++ x :: l2) s).
  Proof. split; intros; [apply TS_add|apply TS_scale]. Qed.
  Definition P2 s a b := TS [a; b] s.
  Definition P3 s a b d := TS [a; b; d] s.
  Definition P4 s a b d e := TS [a; b; d; e] s.
  Definition D1 t a := TS [a] (u t).
  Definition D2 t a b := sym2 (P2 (u t)) a b.
  Definition D3 t a b d := sym3 (P3 (u t)) a b d.
  Definition D4 t a b d e := sym4 (P4 (u t)) a b d e.
  Lemma D_linear t : linear_map (D1 t) /\ bilinear (D2 t) /\ trilinear (D3 t) /\ quadrilinear (D4 t).
  Proof.
    split; [apply (TS_linear [] [])|]. split; [|split].
    - split; [|intros; apply sym2_swap]. intros a. apply sym2_linear; [apply (TS_linear [a] [])|apply (TS_linear [] [a])].
    - split; [|intros; apply sym3_swap12]. intros a. split; [|intros; apply sym3_swap23]. intros b.
      apply sym3_linear; intros x y; [apply (TS_linear [] [x; y])|apply (TS_linear [x] [y])|apply (TS_linear [x; y] [])].
    - split; [|intros; apply sym4_swap12]. intros a. split; [|intros; apply sym4_swap23]. intros b. split; [|intros; apply sym4_swap34]. intros d.
      apply sym4_linear; intros x y z; [apply (TS_linear [] [x; y; z])|apply (TS_linear [x] [y; z])|apply (TS_linear [x; y] [z])|apply (TS_linear [x; y; z] [])].
  Qed.
  Definition reg s := regular c ex s /\ regular c ey s /\ regular c ez s.
  Lemma TS_bound Rb n : 0 <= Rb -> exists B, 0 <= B /\ forall l s, length l = n -> small Rb s -> reg s -> snorm (TS l s) <= B * prodn l.
  Proof.
    intros HR.
    destruct (TT_bound c Rb Hc HR n (EVar 3)) as (A0 & P0 & Q0). destruct (TT_bound c Rb Hc HR n (EVar 4)) as (A1 & P1 & Q1). destruct (TT_bound c Rb Hc HR n (EVar 5)) as (A2 & Pa & Q2).
    destruct (TT_bound c Rb Hc HR n (EMul (EConst EM) ex)) as (A3 & Pb & Q3). destruct (TT_bound c Rb Hc HR n (EMul (EConst EM) ey)) as (A4 & Pc & Q4). destruct (TT_bound c Rb Hc HR n (EMul (EConst EM) ez)) as (A5 & Pd & Q5).
    exists (A0 + A1 + A2 + (A3 + A4 + A5)). split; [lra|]. intros l s El Hs (R1 & R2 & R3). unfold TS, rs, snorm. cbn [s_pos s_vel vx vy vz].
    rewrite !Rmult_plus_distr_r. pose proof (Q0 l s El Hs I). pose proof (Q1 l s El Hs I). pose proof (Q2 l s El Hs I).
    pose proof (Q3 l s El Hs (conj I R1)). pose proof (Q4 l s El Hs (conj I R2)). pose proof (Q5 l s El Hs (conj I R3)). lra.
  Qed.
  Lemma TS_derive l s d tau : reg (sadd s (sscale tau d)) -> has_derivative (fun tau => TS l (sadd s (sscale tau d))) tau (TS (l ++ [d]) (sadd s (sscale tau d))).
  Proof.
    intros (R1 & R2 & R3). unfold TS, rs. split; (split; [|split]); cbn [s_pos s_vel vx vy vz]; apply (TT_derive c); try exact Hc; try exact I; (split; [exact I|assumption]).
  Qed.
  Lemma small_u : exists Rb, 0 <= Rb /\ forall t d, 0 <= t <= T -> snorm d <= rho -> small Rb (sadd (u t) d).
  Proof.
    assert (Q : forall f : R -> R, (forall t, 0 <= t <= T -> ex_derive f t) -> exists B, forall t, 0 <= t <= T -> Rabs (f t) <= B).
    { intros f Hf. destruct (bounded_continuity (V := R_NormedModule) f 0 T) as [B HB].
      - intros t Ht. apply (ex_derive_continuous f t). apply Hf. exact Ht.
      - exists B. intros t Ht. apply Rlt_le. exact (HB t Ht). }
    assert (W : forall t, 0 <= t <= T -> exists g, has_derivative u t g) by (intros t Ht; destruct (Sol t Ht) as (g & _ & Hg); exists g; exact Hg).
    destruct (Q (fun t => vx (s_pos (u t)))) as [B0 H0]; [intros t Ht; destruct (W t Ht) as [g Hg]; eexists; exact (proj1 (proj1 Hg))|].
    destruct (Q (fun t => vy (s_pos (u t)))) as [B1 H1]; [intros t Ht; destruct (W t Ht) as [g Hg]; eexists; exact (proj1 (proj2 (proj1 Hg)))|].
    destruct (Q (fun t => vz (s_pos (u t)))) as [B2 H2]; [intros t Ht; destruct (W t Ht) as [g Hg]; eexists; exact (proj2 (proj2 (proj1 Hg)))|].
    destruct (Q (fun t => vx (s_vel (u t)))) as [B3 H3]; [intros t Ht; destruct (W t Ht) as [g Hg]; eexists; exact (proj1 (proj2 Hg))|].
    destruct (Q (fun t => vy (s_vel (u t)))) as [B4 H4]; [intros t Ht; destruct (W t Ht) as [g Hg]; eexists; exact (proj1 (proj2 (proj2 Hg)))|].
    destruct (Q (fun t => vz (s_vel (u t)))) as [B5 H5]; [intros t Ht; destruct (W t Ht) as [g Hg]; eexists; exact (proj2 (proj2 (proj2 Hg)))|].
    assert (P : 0 <= B0 + B1 + B2 + (B3 + B4 + B5)).
    { pose proof (H0 0 ltac:(lra)). pose proof (H1 0 ltac:(lra)). pose proof (H2 0 ltac:(lra)). pose proof (H3 0 ltac:(lra)). pose proof (H4 0 ltac:(lra)). pose proof (H5 0 ltac:(lra)).
      pose proof (snorm_pos (u 0)) as N. unfold snorm in N. lra. }
    exists (B0 + B1 + B2 + (B3 + B4 + B5) + rho). split; [lra|]. intros t d Ht Hd i.
    eapply Rle_trans; [apply comp_snorm|]. eapply Rle_trans; [apply snorm_add|]. assert (snorm (u t) <= B0 + B1 + B2 + (B3 + B4 + B5)); [|lra].
    unfold snorm. specialize (H0 t Ht). specialize (H1 t Ht). specialize (H2 t Ht). specialize (H3 t Ht). specialize (H4 t Ht). specialize (H5 t Ht). lra.
  Qed.
  Lemma near_rate t d : 0 <= t <= T -> snorm d <= rho -> rate field (sadd (u t) d) (TS [] (sadd (u t) d)) /\ reg (sadd (u t) d).
  Proof.
    intros Ht Hd. destruct (Near t d Ht Hd) as (E & R). split; [|exact R]. eexists. split; [exact E|]. unfold TS, rs. cbn [TT eval]. apply state_eq; apply vec_eq; reflexivity.
  Qed.
  Lemma rate_fun s g g' : rate field s g -> rate field s g' -> g = g'.
  Proof. intros (F & E & ->) (F' & E' & ->). rewrite E in E'. injection E' as ->. reflexivity. Qed.
  Lemma line_small d tau : snorm d <= rho -> 0 <= tau <= 1 -> snorm (sscale tau d) <= rho.
  Proof. intros Hd Ht. rewrite snorm_scale, Rabs_pos_eq by lra. pose proof (snorm_pos d). nra. Qed.
  Lemma line_one d : sscale 1 d = d.
  Proof. destruct_states. state_ring. Qed.
  Lemma line_zero s d : sadd s (sscale 0 d) = s.
  Proof. destruct_states. state_ring. Qed.
  Lemma TS_taylor t d B : 0 <= t <= T -> snorm d <= rho -> 0 <= B -> (forall l s, length l = 5%nat -> (exists e, snorm e <= rho /\ s = sadd (u t) e) -> snorm (TS l s) <= B * prodn l) ->
    snorm (ssub (TS [] (sadd (u t) d)) (expansion (D1 t) (D2 t) (D3 t) (D4 t) (TS [] (u t)) d)) <= 6 * B * snorm d ^ 5.
  Proof.
    intros Ht Hd HB H5. unfold D1, D2, D3, D4. unfold expansion. rewrite sym2_diag, sym3_diag, sym4_diag. unfold P2, P3, P4.
    assert (K : forall f : state -> R, (forall s, Rabs (f s) <= snorm s) -> (forall w w' x, has_derivative w x w' -> is_derive (fun x => f (w x)) x (f w')) ->
      Rabs (f (TS [] (sadd (u t) d)) - (f (TS [] (u t)) + f (TS [d] (u t)) + f (TS [d; d] (u t)) / 2 + f (TS [d; d; d] (u t)) / 6 + f (TS [d; d; d; d] (u t)) / 24)) <= B * snorm d ^ 5).
    { intros f Hf Hder. set (p := fun k tau => f (TS (repeat d k) (sadd (u t) (sscale tau d)))).
      pose proof (taylor5 p (B * snorm d ^ 5)) as Q. unfold p in Q. cbn [repeat] in Q. rewrite line_one, line_zero in Q. apply Q; clear Q.
      - apply Rmult_le_pos; [exact HB|apply pow_le, snorm_pos].
      - intros k tau Hk Htau. apply (Hder (fun tau => TS (repeat d k) (sadd (u t) (sscale tau d)))).
        replace (d :: repeat d k) with (repeat d k ++ [d]); [|symmetry; apply repeat_cons]. apply TS_derive. apply near_rate; [exact Ht|apply line_small; assumption].
      - intros tau Htau. eapply Rle_trans; [apply Hf|]. eapply Rle_trans; [apply H5; [reflexivity|exists (sscale tau d); split; [apply line_small; assumption|reflexivity]]|].
        cbn [prodn]. right. ring. }
    assert (X : forall f, (forall s, Rabs (f s) <= snorm s) -> (forall w w' x, has_derivative w x w' -> is_derive (fun x => f (w x)) x (f w')) -> (forall a b, f (sadd a b) = f a + f b) -> (forall k a, f (sscale k a) = k * f a) ->
      Rabs (f (ssub (TS [] (sadd (u t) d)) (sadd (TS [] (u t)) (sadd (TS [d] (u t)) (sadd (sscale (/ 2) (TS [d; d] (u t))) (sadd (sscale (/ 6) (TS [d; d; d] (u t))) (sscale (/ 24) (TS [d; d; d; d] (u t))))))))) <= B * snorm d ^ 5).
    { intros f Hf Hder Ha Hs. unfold ssub. rewrite !Ha, !Hs, !Ha, !Hs.
      match goal with |- Rabs ?x <= _ => replace x with (f (TS [] (sadd (u t) d)) - (f (TS [] (u t)) + f (TS [d] (u t)) + f (TS [d; d] (u t)) / 2 + f (TS [d; d; d] (u t)) / 6 + f (TS [d; d; d; d] (u t)) / 24)) by (unfold Rdiv; ring) end.
      apply K; assumption. }
    match goal with |- snorm ?s <= _ => set (E := s) in * end.
    pose proof (X (fun s => vx (s_pos s)) (fun s => comp_snorm s 0) (fun w w' x H => proj1 (proj1 H)) (fun a b => eq_refl) (fun a b => eq_refl)) as X0.
    pose proof (X (fun s => vy (s_pos s)) (fun s => comp_snorm s 1) (fun w w' x H => proj1 (proj2 (proj1 H))) (fun a b => eq_refl) (fun a b => eq_refl)) as X1.
    pose proof (X (fun s => vz (s_pos s)) (fun s => comp_snorm s 2) (fun w w' x H => proj2 (proj2 (proj1 H))) (fun a b => eq_refl) (fun a b => eq_refl)) as X2.
    pose proof (X (fun s => vx (s_vel s)) (fun s => comp_snorm s 3) (fun w w' x H => proj1 (proj2 H)) (fun a b => eq_refl) (fun a b => eq_refl)) as X3.
    pose proof (X (fun s => vy (s_vel s)) (fun s => comp_snorm s 4) (fun w w' x H => proj1 (proj2 (proj2 H))) (fun a b => eq_refl) (fun a b => eq_refl)) as X4.
    pose proof (X (fun s => vz (s_vel s)) (fun s => comp_snorm s 5) (fun w w' x H => proj2 (proj2 (proj2 H))) (fun a b => eq_refl) (fun a b => eq_refl)) as X5.
    cbv beta in X0, X1, X2, X3, X4, X5. fold E in X0, X1, X2, X3, X4, X5. unfold snorm at 1. lra.
  Qed.
  Lemma TS_lipschitz t d e B : 0 <= t <= T -> snorm d <= rho -> snorm e <= rho -> 0 <= B -> (forall l s, length l = 1%nat -> (exists x, snorm x <= rho /\ s = sadd (u t) x) -> snorm (TS l s) <= B * prodn l) ->
    snorm (ssub (TS [] (sadd (u t) d)) (TS [] (sadd (u t) e))) <= 6 * B * snorm (ssub d e).
  Proof.
    intros Ht Hd He HB H1. set (w := ssub d e). set (s := sadd (u t) e).
    assert (L : forall tau, sadd s (sscale tau w) = sadd (u t) (sadd (sscale (1 - tau) e) (sscale tau d))) by (intros tau; unfold s, w, ssub; destruct_states; state_ring).
    assert (Lr : forall tau, 0 <= tau <= 1 -> snorm (sadd (sscale (1 - tau) e) (sscale tau d)) <= rho).
    { intros tau Htau. eapply Rle_trans; [apply snorm_add|]. rewrite !snorm_scale, !Rabs_pos_eq by lra. nra. }
    replace (sadd (u t) d) with (sadd s (sscale 1 w)) by (unfold s, w, ssub; destruct_states; state_ring). 
    replace (TS [] s) with (TS [] (sadd s (sscale 0 w))) by (rewrite line_zero; reflexivity).
    pose proof (mvt_state (fun tau => ssub (TS [] (sadd s (sscale tau w))) (TS [] (sadd s (sscale 0 w)))) (fun tau => TS ([] ++ [w]) (sadd s (sscale tau w))) 1 (B * snorm w)) as Q.
    eapply Rle_trans; [apply Q; clear Q|].
    - lra.
    - apply ssub_self.
    - intros tau Htau. unfold ssub at 1. pose proof (has_derivative_add _ _ tau _ _ (TS_derive [] s w tau ltac:(rewrite L; apply near_rate; [exact Ht|apply Lr; exact Htau])) (has_derivative_const (sscale (-1) (TS [] (sadd s (sscale 0 w)))) tau)) as G.
      rewrite sadd_zero_r in G. exact G.
    - intros tau Htau. cbn [app]. eapply Rle_trans; [apply H1; [reflexivity|]|].
      + exists (sadd (sscale (1 - tau) e) (sscale tau d)). split; [apply Lr; split; lra|apply L].
      + cbn [prodn]. lra.
    - right. ring.
  Qed.
  Theorem smooth_of_force : exists M, smooth_along field u T rho M D1 D2 D3 D4.
  Proof.
    destruct small_u as (Rb & HR & Hsm).
    destruct (TS_bound Rb 0 HR) as (A0 & P0 & Q0). destruct (TS_bound Rb 1 HR) as (A1 & P1 & Q1). destruct (TS_bound Rb 2 HR) as (A2 & Pa & Q2).
    destruct (TS_bound Rb 3 HR) as (A3 & Pb & Q3). destruct (TS_bound Rb 4 HR) as (A4 & Pc & Q4). destruct (TS_bound Rb 5 HR) as (A5 & Pd & Q5).
    assert (U : forall t, 0 <= t <= T -> small Rb (u t) /\ reg (u t) /\ rate field (u t) (TS [] (u t))).
    { intros t Ht. assert (Z : snorm szero <= rho) by (rewrite snorm_zero; lra). pose proof (Hsm t szero Ht Z) as S0. destruct (near_rate t szero Ht Z) as [R0 G0]. rewrite sadd_zero_r in *. tauto. }
    exists (1 + A0 + A1 + A2 + A3 + A4 + A5 + 6 * A1 + 6 * A5). set (M := 1 + A0 + A1 + A2 + A3 + A4 + A5 + 6 * A1 + 6 * A5).
    assert (mono : forall A x, 0 <= A <= M -> 0 <= x -> A * x <= M * x) by (intros A x HA Hx; nra).
    split.
    - unfold M. lra.
    - intros t _. apply D_linear.
    - intros t a b d e Ht. destruct (U t Ht) as (S & G & _). pose proof (snorm_pos a). pose proof (snorm_pos b). pose proof (snorm_pos d). pose proof (snorm_pos e).
      assert (0 <= snorm a * snorm b) by (apply Rmult_le_pos; assumption). assert (0 <= snorm b * snorm d) by (apply Rmult_le_pos; assumption). assert (0 <= snorm d * snorm e) by (apply Rmult_le_pos; assumption).
      split; [|split; [|split]].
      + eapply Rle_trans; [apply (Q1 [a] (u t) eq_refl S G)|]. cbn [prodn]. rewrite Rmult_1_r. apply mono; [unfold M; lra|assumption].
      + eapply Rle_trans; [apply (sym2_bound _ _ _ (A2 * (snorm a * snorm b)))|apply mono; [unfold M; lra|assumption]].
        * eapply Rle_trans; [apply (Q2 [a; b] (u t) eq_refl S G)|]. cbn [prodn]. lra.
        * eapply Rle_trans; [apply (Q2 [b; a] (u t) eq_refl S G)|]. cbn [prodn]. lra.
      + eapply Rle_trans; [apply (sym3_bound _ _ _ _ (A3 * (snorm a * (snorm b * snorm d))))|apply mono; [unfold M; lra|apply Rmult_le_pos; assumption]].
        intros x y z E. eapply Rle_trans; [apply (Q3 [x; y; z] (u t) eq_refl S G)|]. rewrite E. cbn [prodn]. right. ring.
      + eapply Rle_trans; [apply (sym4_bound _ _ _ _ _ (A4 * (snorm a * (snorm b * (snorm d * snorm e)))))|apply mono; [unfold M; lra|apply Rmult_le_pos; [assumption|apply Rmult_le_pos; assumption]]].
        intros x y z w E. eapply Rle_trans; [apply (Q4 [x; y; z; w] (u t) eq_refl S G)|]. rewrite E. cbn [prodn]. right. ring.
    - intros t d Ht Hd. destruct (U t Ht) as (S & G & R0). destruct (near_rate t d Ht Hd) as (R1 & G1). exists (TS [] (u t)), (TS [] (sadd (u t) d)).
      split; [exact R0|]. split; [exact R1|]. split.
      + eapply Rle_trans; [apply (Q0 [] (u t) eq_refl S G)|]. cbn [prodn]. unfold M. lra.
      + eapply Rle_trans; [apply (TS_taylor t d A5 Ht Hd Pd)|apply mono; [unfold M; lra|apply pow_le, snorm_pos]].
        intros l s El (x & Hx & ->). apply Q5; [exact El|apply Hsm; assumption|apply near_rate; assumption].
    - intros t d e g g' Ht Hd He Hg Hg'. rewrite (rate_fun _ _ _ Hg (proj1 (near_rate t d Ht Hd))), (rate_fun _ _ _ Hg' (proj1 (near_rate t e Ht He))).
      eapply Rle_trans; [apply (TS_lipschitz t d e A1 Ht Hd He P1)|apply mono; [unfold M; lra|apply snorm_pos]].
      intros l s El (x & Hx & ->). apply Q1; [exact El|apply Hsm; assumption|apply near_rate; assumption].
  Qed.
End Smooth.
