(** Expressions whose roots and logarithms are those of positive quantities along a curve are regular in a tube around it. *)
From Coq Require Import Reals Lra Lia Psatz.
From Coquelicot Require Import Coquelicot.
From Verif Require Import Base BaseFacts Vec TracingModel TracingFacts ConvSpec ConvFacts ConvStep ExprSpec ExprFacts ExprSmooth SeriesFacts.
Local Open Scope R_scope.

Fixpoint positive (e : expr) (s : state) : Prop :=
  match e with
  | EConst _ | EVar _ => True
  | EAdd a b | EMul a b => positive a s /\ positive b s
  | EPow a _ | ELn a => 0 < eval a s /\ positive a s
  end.
Lemma regular_mono c c' e s : c' <= c -> regular c e s -> regular c' e s.
Proof. intros H. induction e; cbn; intuition lra. Qed.
Lemma regular_positive c e s : 0 < c -> regular c e s -> positive e s.
Proof. intros H. induction e; cbn; intuition lra. Qed.

Section Tube.
Context (u : R -> state) (T : R) (HT : 0 <= T) (Hu : forall t, 0 <= t <= T -> exists g, has_derivative u t g).
Definition tube (rho c : R) (e : expr) : Prop := forall t d, 0 <= t <= T -> snorm d <= rho -> regular c e (sadd (u t) d).
Lemma curve_comp i t : 0 <= t <= T -> ex_derive (fun t => comp (u t) i) t.
Proof.
  intros Ht. destruct (Hu t Ht) as (g & (A & B & C) & D & E & F). do 6 (destruct i as [|i]; [eexists; eassumption|]). exists (zero : R). exact (is_derive_const (K := R_AbsRing) (V := R_NormedModule) (0 : R) t).
Qed.
Lemma curve_eval e : (forall t, 0 <= t <= T -> positive e (u t)) -> forall t, 0 <= t <= T -> ex_derive (fun t => eval e (u t)) t.
Proof.
  induction e as [x|j|a IHa b IHb|a IHa b IHb|a IHa k|a IHa]; intros P t Ht; cbn [eval].
  - exists (zero : R). exact (is_derive_const (K := R_AbsRing) (V := R_NormedModule) x t).
  - apply curve_comp. exact Ht.
  - apply (ex_derive_plus (V := R_NormedModule)); [apply IHa|apply IHb]; auto; intros x Hx; apply (P x Hx).
  - apply (ex_derive_mult (fun t => eval a (u t)) (fun t => eval b (u t))); [apply IHa|apply IHb]; auto; intros x Hx; apply (P x Hx).
  - destruct (P t Ht) as [Q _]. apply (ex_derive_comp (fun y => (/ sqrt y) ^ k) (fun t => eval a (u t))); [|apply IHa; [intros x Hx; apply (P x Hx)|exact Ht]].
    pose proof (sqrt_lt_R0 _ Q). auto_derive. split; [lra|split; [lra|exact I]].
  - destruct (P t Ht) as [Q _]. apply (ex_derive_comp ln (fun t => eval a (u t))); [|apply IHa; [intros x Hx; apply (P x Hx)|exact Ht]]. eexists. apply is_derive_ln. exact Q.
Qed.
Lemma positive_min (g : R -> R) : (forall t, 0 <= t <= T -> ex_derive g t) -> (forall t, 0 <= t <= T -> 0 < g t) -> exists m, 0 < m /\ forall t, 0 <= t <= T -> m <= g t.
Proof.
  intros Dg Pos. destruct (bounded_continuity (V := R_NormedModule) (fun t => / g t) 0 T) as [B HB].
  { intros t Ht. apply (ex_derive_continuous (fun t => / g t) t). destruct (Dg t Ht) as [d Hd]. specialize (Pos t Ht). eexists. apply (is_derive_inv g); [exact Hd|lra]. }
  assert (BP : 0 < B). { pose proof (HB 0 ltac:(lra)) as Q. eapply Rle_lt_trans; [apply (norm_ge_0 (V := R_NormedModule) (/ g 0))|exact Q]. }
  exists (/ B). split; [apply Rinv_0_lt_compat; exact BP|]. intros t Ht. specialize (Pos t Ht).
  specialize (HB t Ht). assert (Q : / g t < B). { eapply Rle_lt_trans; [|exact HB]. apply Rle_abs. }
  rewrite <- (Rinv_inv (g t)). left. apply Rinv_lt_contravar; [|exact Q]. apply Rmult_lt_0_compat; [apply Rinv_0_lt_compat|]; lra.
Qed.
Lemma curve_small rho : 0 <= rho -> exists Rb, 0 <= Rb /\ forall t d, 0 <= t <= T -> snorm d <= rho -> small Rb (sadd (u t) d).
Proof.
  intros Hr. assert (Q : forall i, exists B, forall t, 0 <= t <= T -> Rabs (comp (u t) i) <= B).
  { intros i. destruct (bounded_continuity (V := R_NormedModule) (fun t => comp (u t) i) 0 T) as [B HB].
    - intros t Ht. apply (ex_derive_continuous (fun t => comp (u t) i) t). apply curve_comp. exact Ht.
    - exists B. intros t Ht. apply Rlt_le. exact (HB t Ht). }
  destruct (Q 0%nat) as [B0 H0]. destruct (Q 1%nat) as [B1 H1]. destruct (Q 2%nat) as [B2' H2]. destruct (Q 3%nat) as [B3' H3]. destruct (Q 4%nat) as [B4' H4]. destruct (Q 5%nat) as [B5' H5].
  set (M := Rabs B0 + Rabs B1 + Rabs B2' + Rabs B3' + Rabs B4' + Rabs B5').
  assert (MM : Rabs B0 <= M /\ Rabs B1 <= M /\ Rabs B2' <= M /\ Rabs B3' <= M /\ Rabs B4' <= M /\ Rabs B5' <= M /\ 0 <= M).
  { unfold M. pose proof (Rabs_pos B0); pose proof (Rabs_pos B1); pose proof (Rabs_pos B2'); pose proof (Rabs_pos B3'); pose proof (Rabs_pos B4'); pose proof (Rabs_pos B5'). lra. }
  exists (M + rho). split; [lra|]. intros t d Ht Hd i.
  assert (E : comp (sadd (u t) d) i = comp (u t) i + comp d i) by (do 6 (destruct i as [|i]; [reflexivity|]); cbn; ring).
  rewrite E. pose proof (comp_snorm d i). eapply Rle_trans; [apply Rabs_triang|]. apply Rplus_le_compat; [|lra].
  pose proof (Rle_abs B0); pose proof (Rle_abs B1); pose proof (Rle_abs B2'); pose proof (Rle_abs B3'); pose proof (Rle_abs B4'); pose proof (Rle_abs B5').
  specialize (H0 t Ht); specialize (H1 t Ht); specialize (H2 t Ht); specialize (H3 t Ht); specialize (H4 t Ht); specialize (H5 t Ht).
  do 6 (destruct i as [|i]; [lra|]). cbn. rewrite Rabs_R0. lra.
Qed.
(** In a tube where [e] is regular, it changes by no more than a multiple of the distance from the curve. *)
Lemma tube_lipschitz rho c e : 0 < rho -> 0 < c -> tube rho c e -> exists L, 0 <= L /\ forall t d, 0 <= t <= T -> snorm d <= rho -> Rabs (eval e (sadd (u t) d) - eval e (u t)) <= L * snorm d.
Proof.
  intros Hr Hc Tu. destruct (curve_small rho ltac:(lra)) as (Rb & HR & Sm). destruct (TT_bound c Rb Hc HR 1 e) as (B & HB & Q). exists B. split; [exact HB|]. intros t d Ht Hd.
  pose proof (snorm_pos d). assert (Ls : forall tau, 0 <= tau <= 1 -> snorm (sscale tau d) <= rho) by (intros tau Htau; rewrite snorm_scale, Rabs_pos_eq by lra; nra).
  pose proof (mvt_increase (fun tau => eval e (sadd (u t) (sscale tau d)) - eval e (u t)) (fun tau => TT [d] e (sadd (u t) (sscale tau d))) (B * snorm d)) as K.
  rewrite <- (line_one d) at 1. apply K; [nra| | | |lra].
  - rewrite line_zero. ring.
  - intros tau Htau. pose proof (TT_derive c (u t) d tau Hc [] e (Tu t (sscale tau d) Ht (Ls tau Htau))) as D. cbn [app] in D.
    eapply is_derive_eq; [apply (is_derive_minus (V := R_NormedModule)); [exact D|apply is_derive_const]|]. unfold minus, plus, opp, zero; cbn -[TT]. ring.
  - intros tau Htau. pose proof (Q [d] (sadd (u t) (sscale tau d)) eq_refl (Sm t _ Ht (Ls tau Htau)) (Tu t _ Ht (Ls tau Htau))) as P. cbn [prodn] in P. rewrite Rmult_1_r in P. exact P.
Qed.
Lemma tube_shrink rho c rho' c' e : rho' <= rho -> c' <= c -> tube rho c e -> tube rho' c' e.
Proof. intros H1 H2 Tu t d Ht Hd. apply (regular_mono c); [exact H2|]. apply Tu; [exact Ht|lra]. Qed.
Lemma tube_root a : (forall t, 0 <= t <= T -> 0 < eval a (u t) /\ positive a (u t)) -> (exists rho c, 0 < rho /\ 0 < c /\ tube rho c a) ->
  exists rho c, 0 < rho /\ 0 < c /\ forall t d, 0 <= t <= T -> snorm d <= rho -> c <= eval a (sadd (u t) d) /\ regular c a (sadd (u t) d).
Proof.
  intros P (rho & c & Hr & Hc & Tu). destruct (positive_min (fun t => eval a (u t))) as (m & Hm & Min); [apply curve_eval; intros t Ht; apply (P t Ht)|intros t Ht; apply (P t Ht)|].
  destruct (tube_lipschitz rho c a Hr Hc Tu) as (L & HL & Lip). set (rho' := Rmin rho (m / (2 * (L + 1)))). set (c' := Rmin c (m / 2)).
  assert (D : 0 < m / (2 * (L + 1))) by (apply Rdiv_lt_0_compat; lra). pose proof (Rmin_l rho (m / (2 * (L + 1)))) as M1. pose proof (Rmin_r rho (m / (2 * (L + 1)))) as M2. fold rho' in M1, M2.
  pose proof (Rmin_l c (m / 2)) as M3. pose proof (Rmin_r c (m / 2)) as M4. fold c' in M3, M4.
  exists rho', c'. split; [apply Rmin_glb_lt; assumption|]. split; [apply Rmin_glb_lt; lra|]. intros t d Ht Hd. split; [|apply (tube_shrink rho c rho' c' a M1 M3 Tu t d Ht Hd)].
  specialize (Lip t d Ht ltac:(lra)). specialize (Min t Ht). pose proof (snorm_pos d).
  assert (B : L * snorm d <= m / 2).
  { apply Rle_trans with ((L + 1) * snorm d); [nra|]. apply Rle_trans with ((L + 1) * (m / (2 * (L + 1)))); [apply Rmult_le_compat_l; lra|]. right. field. lra. }
  unfold Rabs in Lip. destruct (Rcase_abs _); lra.
Qed.
Theorem tube_exists e : (forall t, 0 <= t <= T -> positive e (u t)) -> exists rho c, 0 < rho /\ 0 < c /\ tube rho c e.
Proof.
  induction e as [x|j|a IHa b IHb|a IHa b IHb|a IHa k|a IHa]; intros P.
  - exists 1, 1. split; [lra|]. split; [lra|]. intros t d _ _. exact I.
  - exists 1, 1. split; [lra|]. split; [lra|]. intros t d _ _. exact I.
  - destruct IHa as (r1 & c1 & R1 & C1 & T1); [intros t Ht; apply (P t Ht)|]. destruct IHb as (r2 & c2 & R2 & C2 & T2); [intros t Ht; apply (P t Ht)|].
    exists (Rmin r1 r2), (Rmin c1 c2). split; [apply Rmin_glb_lt; assumption|]. split; [apply Rmin_glb_lt; assumption|].
    intros t d Ht Hd. split; [apply (tube_shrink r1 c1 _ _ a (Rmin_l _ _) (Rmin_l _ _) T1 t d Ht Hd)|apply (tube_shrink r2 c2 _ _ b (Rmin_r _ _) (Rmin_r _ _) T2 t d Ht Hd)].
  - destruct IHa as (r1 & c1 & R1 & C1 & T1); [intros t Ht; apply (P t Ht)|]. destruct IHb as (r2 & c2 & R2 & C2 & T2); [intros t Ht; apply (P t Ht)|].
    exists (Rmin r1 r2), (Rmin c1 c2). split; [apply Rmin_glb_lt; assumption|]. split; [apply Rmin_glb_lt; assumption|].
    intros t d Ht Hd. split; [apply (tube_shrink r1 c1 _ _ a (Rmin_l _ _) (Rmin_l _ _) T1 t d Ht Hd)|apply (tube_shrink r2 c2 _ _ b (Rmin_r _ _) (Rmin_r _ _) T2 t d Ht Hd)].
  - destruct (tube_root a P) as (rho & c & H1 & H2 & H3); [apply IHa; intros t Ht; apply (P t Ht)|]. exists rho, c. auto.
  - destruct (tube_root a P) as (rho & c & H1 & H2 & H3); [apply IHa; intros t Ht; apply (P t Ht)|]. exists rho, c. auto.
Qed.
End Tube.
