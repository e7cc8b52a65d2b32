(** Taylor expansions of Runge-Kutta steps and of solutions of the equation of motion. *)
From Coq Require Import Reals Lra Lia Psatz.
From Coquelicot Require Import Coquelicot.
From Verif Require Import Base BaseFacts Vec TracingModel TracingFacts ConvSpec.
Local Open Scope R_scope.

Lemma snorm_pos s : 0 <= snorm s.
Proof. unfold snorm. repeat apply Rplus_le_le_0_compat; apply Rabs_pos. Qed.
Lemma snorm_zero : snorm szero = 0.
Proof. unfold snorm. cbn. rewrite Rabs_R0. ring. Qed.
Lemma snorm_add a b : snorm (sadd a b) <= snorm a + snorm b.
Proof.
  unfold snorm. destruct a as [[] []], b as [[] []]; cbn.
  repeat match goal with |- context [Rabs (?x + ?y)] => let P := fresh in pose proof (Rabs_triang x y) as P; let z := fresh in set (z := Rabs (x + y)) in * end. lra.
Qed.
Lemma snorm_scale k a : snorm (sscale k a) = Rabs k * snorm a.
Proof. unfold snorm. cbn. rewrite !Rabs_mult. ring. Qed.
Lemma Rabs_m1 : Rabs (-1) = 1.
Proof. rewrite Rabs_left; lra. Qed.
Lemma snorm_sub a b : snorm (ssub a b) <= snorm a + snorm b.
Proof. unfold ssub. eapply Rle_trans; [apply snorm_add|]. rewrite snorm_scale, Rabs_m1. lra. Qed.
Lemma snorm_sub_sym a b : snorm (ssub a b) = snorm (ssub b a).
Proof. replace (ssub a b) with (sscale (-1) (ssub b a)) by (unfold ssub; state_ring). rewrite snorm_scale, Rabs_m1. ring. Qed.
Lemma ssub_add a b : sadd b (ssub a b) = a.
Proof. unfold ssub. destruct_states. state_ring. Qed.
Lemma ssub_self a : ssub a a = szero.
Proof. unfold ssub. state_ring. Qed.
Lemma ssub_triangle a b c : snorm (ssub a c) <= snorm (ssub a b) + snorm (ssub b c).
Proof. replace (ssub a c) with (sadd (ssub a b) (ssub b c)) by (unfold ssub; state_ring). apply snorm_add. Qed.
Lemma snorm_le_sub a b : snorm a <= snorm b + snorm (ssub a b).
Proof. rewrite <- (ssub_add a b) at 1. apply snorm_add. Qed.

(** expansions of powers *)
Lemma bil_square B a b : bilinear B -> B (sadd a b) (sadd a b) = sadd (B a a) (sadd (sscale 2 (B a b)) (B b b)).
Proof.
  intros [L S]. rewrite (lin_add _ (L (sadd a b))). rewrite (S (sadd a b) a), (S (sadd a b) b), !(lin_add _ (L _)). rewrite (S b a). state_ring.
Qed.
Lemma tri_cube B a b : trilinear B -> B (sadd a b) (sadd a b) (sadd a b) = sadd (B a a a) (sadd (sscale 3 (B a a b)) (sadd (sscale 3 (B a b b)) (B b b b))).
Proof.
  intros [L S].
  assert (E : forall c d, B (sadd a b) c d = sadd (B a c d) (B b c d)).
  { intros c d. rewrite (S (sadd a b) c d). rewrite (S a c d), (S b c d). rewrite (proj2 (L c) (sadd a b) d), (proj2 (L c) a d), (proj2 (L c) b d). apply (lin_add _ (proj1 (L c) d)). }
  rewrite E. rewrite !(bil_square _ a b (L _)). rewrite (S b a a), (S b a b), (proj2 (L a) b a). state_ring.
Qed.
Lemma quad_fourth B a b : quadrilinear B -> B (sadd a b) (sadd a b) (sadd a b) (sadd a b) =
  sadd (B a a a a) (sadd (sscale 4 (B a a a b)) (sadd (sscale 6 (B a a b b)) (sadd (sscale 4 (B a b b b)) (B b b b b)))).
Proof.
  intros [L S].
  assert (E : forall c d e, B (sadd a b) c d e = sadd (B a c d e) (B b c d e)).
  { intros c d e. rewrite (S (sadd a b) c), (S a c), (S b c). destruct (L c) as [L3 S3]. rewrite (S3 (sadd a b) d e), (S3 a d e), (S3 b d e). destruct (L3 d) as [L2 S2].
    rewrite (S2 (sadd a b) e), (S2 a e), (S2 b e). apply (lin_add _ (L2 e)). }
  rewrite E. rewrite !(tri_cube _ a b (L _)).
  assert (E1 : B b a a a = B a a a b) by (rewrite (S b a a a); destruct (L a) as [L3 S3]; rewrite (S3 b a a); apply (proj2 (L3 a))).
  assert (E2 : B b a a b = B a a b b) by (rewrite (S b a a b); apply (proj2 (L a))).
  assert (E3 : B b a b b = B a b b b) by apply S.
  rewrite E1, E2, E3. state_ring.
Qed.

Ltac state_field := apply state_eq; apply vec_eq; cbn; field.
(** ** Quantities of order [h ^ n], uniformly *)
Section BigO.
  Variable dom : R -> R -> Prop.
  Hypothesis dom_h : forall t h, dom t h -> 0 <= h <= 1.
  Definition bigO (n : nat) (g : R -> R -> state) : Prop := exists C, 0 <= C /\ forall t h, dom t h -> snorm (g t h) <= C * h ^ n.
  Lemma pow_mono h m n : 0 <= h <= 1 -> (m <= n)%nat -> h ^ n <= h ^ m.
  Proof.
    intros Hh L. replace n with (m + (n - m))%nat by lia. rewrite pow_add. rewrite <- (Rmult_1_r (h ^ m)) at 2. apply Rmult_le_compat_l; [apply pow_le; lra|].
    generalize (n - m)%nat as k. induction k as [|k IH]; [cbn; lra|]. cbn [pow]. assert (0 <= h ^ k) by (apply pow_le; lra). nra.
  Qed.
  Lemma O_ext n g g' : (forall t h, dom t h -> g t h = g' t h) -> bigO n g -> bigO n g'.
  Proof. intros E (C & HC & H). exists C. split; [exact HC|]. intros t h D. rewrite <- E by exact D. apply H; exact D. Qed.
  Lemma O_le m n g : (m <= n)%nat -> bigO n g -> bigO m g.
  Proof. intros L (C & HC & H). exists C. split; [exact HC|]. intros t h D. eapply Rle_trans; [apply H; exact D|]. apply Rmult_le_compat_l; [exact HC|]. apply pow_mono; [exact (dom_h t h D)|exact L]. Qed.
  Lemma O_zero n : bigO n (fun _ _ => szero).
  Proof. exists 0. split; [lra|]. intros. rewrite snorm_zero. lra. Qed.
  Lemma O_add n g g' : bigO n g -> bigO n g' -> bigO n (fun t h => sadd (g t h) (g' t h)).
  Proof.
    intros (C & HC & H) (C' & HC' & H'). exists (C + C'). split; [lra|]. intros t h D. eapply Rle_trans; [apply snorm_add|].
    specialize (H t h D). specialize (H' t h D). lra.
  Qed.
  Lemma O_scale n k g : bigO n g -> bigO n (fun t h => sscale k (g t h)).
  Proof.
    intros (C & HC & H). exists (Rabs k * C). pose proof (Rabs_pos k). split; [nra|]. intros t h D. rewrite snorm_scale. specialize (H t h D). rewrite Rmult_assoc. apply Rmult_le_compat_l; lra.
  Qed.
  Lemma O_sub n g g' : bigO n g -> bigO n g' -> bigO n (fun t h => ssub (g t h) (g' t h)).
  Proof. intros A B. apply O_add; [exact A|]. apply O_scale; exact B. Qed.
  Lemma O_hpow n k g : bigO n g -> bigO (k + n) (fun t h => sscale (h ^ k) (g t h)).
  Proof.
    intros (C & HC & H). exists C. split; [exact HC|]. intros t h D. pose proof (dom_h t h D). assert (0 <= h ^ k) by (apply pow_le; lra).
    rewrite snorm_scale, Rabs_pos_eq by assumption. rewrite pow_add. specialize (H t h D). nra.
  Qed.
  Definition same (n : nat) (g g' : R -> R -> state) : Prop := bigO n (fun t h => ssub (g t h) (g' t h)).
  Lemma same_refl n g : same n g g.
  Proof. apply (O_ext n (fun _ _ => szero)); [intros; rewrite ssub_self; reflexivity|apply O_zero]. Qed.
  Lemma same_sym n g g' : same n g g' -> same n g' g.
  Proof. intros H. apply (O_ext n (fun t h => sscale (-1) (ssub (g t h) (g' t h)))); [intros; unfold ssub; state_ring|apply O_scale; exact H]. Qed.
  Lemma same_trans n g1 g2 g3 : same n g1 g2 -> same n g2 g3 -> same n g1 g3.
  Proof. intros A B. apply (O_ext n (fun t h => sadd (ssub (g1 t h) (g2 t h)) (ssub (g2 t h) (g3 t h)))); [intros; unfold ssub; state_ring|apply O_add; assumption]. Qed.
  Lemma same_add n g1 g2 g3 g4 : same n g1 g2 -> same n g3 g4 -> same n (fun t h => sadd (g1 t h) (g3 t h)) (fun t h => sadd (g2 t h) (g4 t h)).
  Proof. intros A B. apply (O_ext n (fun t h => sadd (ssub (g1 t h) (g2 t h)) (ssub (g3 t h) (g4 t h)))); [intros; unfold ssub; state_ring|apply O_add; assumption]. Qed.
  Lemma same_scale n k g g' : same n g g' -> same n (fun t h => sscale k (g t h)) (fun t h => sscale k (g' t h)).
  Proof. intros A. apply (O_ext n (fun t h => sscale k (ssub (g t h) (g' t h)))); [intros; unfold ssub; state_ring|apply O_scale; assumption]. Qed.
  Lemma same_O n g g' : same n g g' -> bigO n g' -> bigO n g.
  Proof. intros A B. apply (O_ext n (fun t h => sadd (g' t h) (ssub (g t h) (g' t h)))); [intros; apply ssub_add|apply O_add; assumption]. Qed.

  (** ** Multilinear maps *)
  Variables (D1 : R -> state -> state) (D2 : R -> state -> state -> state) (D3 : R -> state -> state -> state -> state) (D4 : R -> state -> state -> state -> state -> state).
  Variable M : R.
  Hypothesis HM : 0 < M.
  Hypothesis D_lin : forall t h, dom t h -> linear_map (D1 t) /\ bilinear (D2 t) /\ trilinear (D3 t) /\ quadrilinear (D4 t).
  Hypothesis D_bound : forall t h a b c d, dom t h -> snorm (D1 t a) <= M * snorm a /\ snorm (D2 t a b) <= M * (snorm a * snorm b) /\
    snorm (D3 t a b c) <= M * (snorm a * (snorm b * snorm c)) /\ snorm (D4 t a b c d) <= M * (snorm a * (snorm b * (snorm c * snorm d))).
  Lemma O_D1 n a : bigO n a -> bigO n (fun t h => D1 t (a t h)).
  Proof.
    intros (A & HA & Ha). exists (M * A). split; [nra|]. intros t h D. destruct (D_bound t h (a t h) szero szero szero D) as (B & _). eapply Rle_trans; [exact B|]. specialize (Ha t h D). rewrite Rmult_assoc. apply Rmult_le_compat_l; lra.
  Qed.
  Lemma prod_bound x y A B h n m : 0 <= x -> 0 <= y -> 0 <= h -> 0 <= A -> 0 <= B -> x <= A * h ^ n -> y <= B * h ^ m -> x * y <= A * B * h ^ (n + m).
  Proof. intros. replace (A * B * h ^ (n + m)) with ((A * h ^ n) * (B * h ^ m)) by (rewrite pow_add; ring). apply Rmult_le_compat; assumption. Qed.
  Lemma O_D2 n m a b : bigO n a -> bigO m b -> bigO (n + m) (fun t h => D2 t (a t h) (b t h)).
  Proof.
    intros (A & HA & Ha) (B & HB & Hb). exists (M * (A * B)). split; [apply Rmult_le_pos; [lra|nra]|]. intros t h D. destruct (D_bound t h (a t h) (b t h) szero szero D) as (_ & Q & _). eapply Rle_trans; [exact Q|].
    rewrite Rmult_assoc. apply Rmult_le_compat_l; [lra|]. pose proof (dom_h t h D). apply prod_bound; try apply snorm_pos; try lra; auto.
  Qed.
  Lemma O_D3 n m k a b c : bigO n a -> bigO m b -> bigO k c -> bigO (n + (m + k)) (fun t h => D3 t (a t h) (b t h) (c t h)).
  Proof.
    intros (A & HA & Ha) (B & HB & Hb) (C & HC & Hc). exists (M * (A * (B * C))). assert (0 <= B * C) by nra. split; [apply Rmult_le_pos; [lra|nra]|]. intros t h D. destruct (D_bound t h (a t h) (b t h) (c t h) szero D) as (_ & _ & Q & _). eapply Rle_trans; [exact Q|].
    rewrite Rmult_assoc. apply Rmult_le_compat_l; [lra|]. pose proof (dom_h t h D). pose proof (snorm_pos (b t h)). pose proof (snorm_pos (c t h)). apply prod_bound; try apply snorm_pos; try lra; auto; try nra. apply prod_bound; try apply snorm_pos; try lra; auto.
  Qed.
  Lemma O_D4 n m k l a b c d : bigO n a -> bigO m b -> bigO k c -> bigO l d -> bigO (n + (m + (k + l))) (fun t h => D4 t (a t h) (b t h) (c t h) (d t h)).
  Proof.
    intros (A & HA & Ha) (B & HB & Hb) (C & HC & Hc) (E & HE & He). exists (M * (A * (B * (C * E)))). assert (0 <= C * E) by nra. assert (0 <= B * (C * E)) by nra. split; [apply Rmult_le_pos; [lra|nra]|]. intros t h D. destruct (D_bound t h (a t h) (b t h) (c t h) (d t h) D) as (_ & _ & _ & Q). eapply Rle_trans; [exact Q|].
    rewrite Rmult_assoc. apply Rmult_le_compat_l; [lra|]. pose proof (dom_h t h D). pose proof (snorm_pos (b t h)). pose proof (snorm_pos (c t h)). pose proof (snorm_pos (d t h)).
    assert (0 <= snorm (c t h) * snorm (d t h)) by nra. apply prod_bound; try apply snorm_pos; try lra; auto; try nra. apply prod_bound; try apply snorm_pos; try lra; auto; try nra. apply prod_bound; try apply snorm_pos; try lra; auto.
  Qed.

  (** ** Elementary differentials up to order five *)
  Variable f0 : R -> state.
  Hypothesis f0_bound : forall t h, dom t h -> snorm (f0 t) <= M.
  Definition tr (t : R) (i : nat) : state :=
    let F := f0 t in let F1 := D1 t F in let F2 := D2 t F F in let F3 := D1 t F1 in
    match i with
    | 0 => F | 1 => F1 | 2 => F2 | 3 => F3
    | 4 => D3 t F F F | 5 => D2 t F F1 | 6 => D1 t F2 | 7 => D1 t F3
    | 8 => D4 t F F F F | 9 => D3 t F F F1 | 10 => D2 t F F2 | 11 => D2 t F F3 | 12 => D2 t F1 F1
    | 13 => D1 t (D3 t F F F) | 14 => D1 t (D2 t F F1) | 15 => D1 t (D1 t F2) | _ => D1 t (D1 t F3)
    end%nat.
  Definition ord (i : nat) : nat := match i with 0 => 1 | 1 => 2 | 2 | 3 => 3 | 4 | 5 | 6 | 7 => 4 | _ => 5 end%nat.
  Fixpoint ev (n : nat) (c : nat -> R) (t h : R) : state :=
    match n with O => szero | S n => sadd (ev n c t h) (sscale (c n * h ^ ord n) (tr t n)) end.
  (** the expansion of [h f(y + d)] for the displacement [d] with the coefficients [c] *)
  Definition G (c : nat -> R) (i : nat) : R :=
    match i with
    | 0 => 1 | 1 => c 0%nat | 2 => c 0%nat ^ 2 / 2 | 3 => c 1%nat
    | 4 => c 0%nat ^ 3 / 6 | 5 => c 0%nat * c 1%nat | 6 => c 2%nat | 7 => c 3%nat
    | 8 => c 0%nat ^ 4 / 24 | 9 => c 0%nat ^ 2 * c 1%nat / 2 | 10 => c 0%nat * c 2%nat | 11 => c 0%nat * c 3%nat | 12 => c 1%nat ^ 2 / 2
    | 13 => c 4%nat | 14 => c 5%nat | 15 => c 6%nat | _ => c 7%nat
    end.
  Lemma ev_add n a b t h : ev n (fun i => a i + b i) t h = sadd (ev n a t h) (ev n b t h).
  Proof. induction n as [|n IH]; cbn [ev]; [state_ring|]. rewrite IH. generalize (h ^ ord n). intros x. state_ring. Qed.
  Lemma ev_scale n k a t h : ev n (fun i => k * a i) t h = sscale k (ev n a t h).
  Proof. induction n as [|n IH]; cbn [ev]; [state_ring|]. rewrite IH. generalize (h ^ ord n). intros x. state_ring. Qed.
  Lemma ev_zero n t h : ev n (fun _ => 0) t h = szero.
  Proof. induction n as [|n IH]; cbn [ev]; [reflexivity|]. rewrite IH. generalize (h ^ ord n). intros x. state_ring. Qed.
  Lemma O_tr i : bigO 0 (fun t _ => tr t i).
  Proof.
    assert (F : bigO 0 (fun t _ => f0 t)) by (exists M; split; [lra|]; intros t h D; cbn [pow]; specialize (f0_bound t h D); lra).
    assert (F1 := O_D1 0 _ F). assert (F2 := O_D2 0 0 _ _ F F). assert (F3 := O_D1 0 _ F1). assert (F4 := O_D3 0 0 0 _ _ _ F F F). assert (F5 := O_D2 0 0 _ _ F F1). assert (F6 := O_D1 0 _ F2). assert (F7 := O_D1 0 _ F3).
    cbn [Nat.add] in *. unfold tr.
    do 17 (destruct i as [|i]; [first [assumption | apply (O_D4 0 0 0 0); assumption | apply (O_D3 0 0 0); assumption | apply (O_D2 0 0); assumption | apply O_D1; assumption]|]).
    apply O_D1; assumption.
  Qed.
  Lemma O_term k i (x : R) : bigO k (fun t h => sscale (x * h ^ k) (tr t i)).
  Proof.
    apply (O_ext k (fun t h => sscale x (sscale (h ^ k) (tr t i)))); [intros t h _; generalize (h ^ k); intros y; state_ring|].
    apply O_scale. replace k with (k + 0)%nat at 1 by lia. apply (O_hpow 0 k (fun t _ => tr t i)). apply O_tr.
  Qed.
  Lemma key c d g : same 5 d (ev 8 c) -> same 5 g (fun t h => expansion (D1 t) (D2 t) (D3 t) (D4 t) (f0 t) (d t h)) ->
    same 6 (fun t h => sscale h (g t h)) (ev 17 (G c)).
  Proof.
    intros Hd Hg.
    set (r := fun t h => ssub (d t h) (ev 8 c t h)). assert (Or : bigO 5 r) by exact Hd.
    set (p1 := fun t h => sscale (c 0%nat * h ^ 1) (tr t 0)).
    set (p2 := fun t h => sscale (c 1%nat * h ^ 2) (tr t 1)).
    set (p3 := fun t h => sadd (sscale (c 2%nat * h ^ 3) (tr t 2)) (sscale (c 3%nat * h ^ 3) (tr t 3))).
    set (p4 := fun t h => sadd (sadd (sscale (c 4%nat * h ^ 4) (tr t 4)) (sscale (c 5%nat * h ^ 4) (tr t 5))) (sadd (sscale (c 6%nat * h ^ 4) (tr t 6)) (sscale (c 7%nat * h ^ 4) (tr t 7)))).
    assert (O1 : bigO 1 p1) by apply O_term. assert (O2 : bigO 2 p2) by apply O_term. assert (O3 : bigO 3 p3) by (apply O_add; apply O_term).
    assert (O4 : bigO 4 p4) by (apply O_add; apply O_add; apply O_term).
    set (q4 := fun t h => sadd (p4 t h) (r t h)). assert (Q4 : bigO 4 q4) by (apply O_add; [exact O4|apply (O_le 4 5); [lia|exact Or]]).
    set (q3 := fun t h => sadd (p3 t h) (q4 t h)). assert (Q3 : bigO 3 q3) by (apply O_add; [exact O3|apply (O_le 3 4); [lia|exact Q4]]).
    set (q2 := fun t h => sadd (p2 t h) (q3 t h)). assert (Q2 : bigO 2 q2) by (apply O_add; [exact O2|apply (O_le 2 3); [lia|exact Q3]]).
    assert (Ed : forall t h, d t h = sadd (p1 t h) (q2 t h)).
    { intros t h. rewrite <- (ssub_add (d t h) (ev 8 c t h)). change (ssub (d t h) (ev 8 c t h)) with (r t h). unfold q2, q3, q4, p1, p2, p3, p4. cbn [ev ord].
      generalize (r t h) (tr t 0) (tr t 1) (tr t 2) (tr t 3) (tr t 4) (tr t 5) (tr t 6) (tr t 7). intros. destruct_states. state_ring. }
    set (main := fun t h => sadd (f0 t) (sadd (sadd (sadd (D1 t (p1 t h)) (D1 t (p2 t h))) (sadd (D1 t (p3 t h)) (D1 t (p4 t h))))
      (sadd (sscale (/ 2) (sadd (sadd (D2 t (p1 t h) (p1 t h)) (sscale 2 (D2 t (p1 t h) (p2 t h)))) (sadd (sscale 2 (D2 t (p1 t h) (p3 t h))) (D2 t (p2 t h) (p2 t h)))))
      (sadd (sscale (/ 6) (sadd (D3 t (p1 t h) (p1 t h) (p1 t h)) (sscale 3 (D3 t (p1 t h) (p1 t h) (p2 t h))))) (sscale (/ 24) (D4 t (p1 t h) (p1 t h) (p1 t h) (p1 t h))))))).
    assert (Sm : same 5 (fun t h => expansion (D1 t) (D2 t) (D3 t) (D4 t) (f0 t) (d t h)) main).
    { apply (O_ext 5 (fun t h => sadd (D1 t (r t h)) (sadd
        (sscale (/ 2) (sadd (sscale 2 (D2 t (p1 t h) (q4 t h))) (sadd (sscale 2 (D2 t (p2 t h) (q3 t h))) (D2 t (q3 t h) (q3 t h)))))
        (sadd (sscale (/ 6) (sadd (sscale 3 (D3 t (p1 t h) (p1 t h) (q3 t h))) (sadd (sscale 3 (D3 t (p1 t h) (q2 t h) (q2 t h))) (D3 t (q2 t h) (q2 t h) (q2 t h)))))
          (sscale (/ 24) (sadd (sscale 4 (D4 t (p1 t h) (p1 t h) (p1 t h) (q2 t h))) (sadd (sscale 6 (D4 t (p1 t h) (p1 t h) (q2 t h) (q2 t h))) (sadd (sscale 4 (D4 t (p1 t h) (q2 t h) (q2 t h) (q2 t h))) (D4 t (q2 t h) (q2 t h) (q2 t h) (q2 t h)))))))))).
      - intros t h D. destruct (D_lin t h D) as (L1 & L2 & L3 & L4). unfold expansion, main. rewrite (Ed t h).
        rewrite (bil_square _ _ _ L2), (tri_cube _ _ _ L3), (quad_fourth _ _ _ L4).
        replace (D1 t (sadd (p1 t h) (q2 t h))) with (sadd (D1 t (p1 t h)) (sadd (D1 t (p2 t h)) (sadd (D1 t (p3 t h)) (sadd (D1 t (p4 t h)) (D1 t (r t h))))))
          by (unfold q2, q3, q4; rewrite !(lin_add _ L1); reflexivity).
        replace (D2 t (q2 t h) (q2 t h)) with (sadd (D2 t (p2 t h) (p2 t h)) (sadd (sscale 2 (D2 t (p2 t h) (q3 t h))) (D2 t (q3 t h) (q3 t h))))
          by (unfold q2; rewrite (bil_square _ _ _ L2); reflexivity).
        replace (D2 t (p1 t h) (q2 t h)) with (sadd (D2 t (p1 t h) (p2 t h)) (sadd (D2 t (p1 t h) (p3 t h)) (D2 t (p1 t h) (q4 t h))))
          by (unfold q2, q3; rewrite !(lin_add _ (proj1 L2 _)); reflexivity).
        replace (D3 t (p1 t h) (p1 t h) (q2 t h)) with (sadd (D3 t (p1 t h) (p1 t h) (p2 t h)) (D3 t (p1 t h) (p1 t h) (q3 t h)))
          by (unfold q2; rewrite (lin_add _ (proj1 (proj1 L3 _) _)); reflexivity).
        clearbody p1 p2 p3 p4 q2 q3 q4 r. unfold ssub. state_ring.
      - assert (E5 : forall n, (5 <= n)%nat -> forall g0, bigO n g0 -> bigO 5 g0) by (intros n Hn g0; apply O_le; exact Hn).
        repeat (apply O_add || apply O_scale).
        + apply O_D1; exact Or.
        + apply (O_D2 1 4); assumption.
        + apply (O_D2 2 3); assumption.
        + apply (E5 6%nat); [lia|]. apply (O_D2 3 3); assumption.
        + apply (O_D3 1 1 3); assumption.
        + apply (O_D3 1 2 2); assumption.
        + apply (E5 6%nat); [lia|]. apply (O_D3 2 2 2); assumption.
        + apply (O_D4 1 1 1 2); assumption.
        + apply (E5 6%nat); [lia|]. apply (O_D4 1 1 2 2); assumption.
        + apply (E5 7%nat); [lia|]. apply (O_D4 1 2 2 2); assumption.
        + apply (E5 8%nat); [lia|]. apply (O_D4 2 2 2 2); assumption. }
    pose proof (same_trans 5 _ _ _ Hg Sm) as S5. unfold same in *.
    apply (O_ext 6 (fun t h => sscale (h ^ 1) (ssub (g t h) (main t h)))); [|apply (O_hpow 5 1); exact S5].
    intros t h D. destruct (D_lin t h D) as (L1 & L2 & L3 & L4).
    assert (B2 : forall k l a b, D2 t (sscale k a) (sscale l b) = sscale (k * l) (D2 t a b)).
    { intros k l a b. rewrite (lin_scale _ (proj1 L2 _)), (proj2 L2 (sscale k a) b), (lin_scale _ (proj1 L2 _)), (proj2 L2 b a), sscale_mul. f_equal; ring. }
    assert (B3 : forall k l m a b e, D3 t (sscale k a) (sscale l b) (sscale m e) = sscale (k * l * m) (D3 t a b e)).
    { intros k l m a b e. destruct L3 as [LL SS]. rewrite (lin_scale _ (proj1 (LL _) _)). rewrite (proj2 (LL (sscale k a)) (sscale l b) e), (lin_scale _ (proj1 (LL _) _)).
      rewrite (SS (sscale k a) e b), (proj2 (LL e) (sscale k a) b), (lin_scale _ (proj1 (LL _) _)). rewrite (proj2 (LL e) b a), (SS e a b), (proj2 (LL a) e b). rewrite !sscale_mul. f_equal; ring. }
    assert (B4 : forall k a, D4 t (sscale k a) (sscale k a) (sscale k a) (sscale k a) = sscale (k ^ 4) (D4 t a a a a)).
    { intros k a. destruct L4 as [LL SS].
      assert (P1 : forall x y z w, D4 t x y z (sscale k w) = sscale k (D4 t x y z w)) by (intros x y z w; apply (lin_scale _ (proj1 (proj1 (LL x) y) z))).
      assert (P2 : forall x y z w, D4 t x y (sscale k z) w = sscale k (D4 t x y z w)) by (intros x y z w; rewrite (proj2 (proj1 (LL x) y) (sscale k z) w), P1; f_equal; apply (proj2 (proj1 (LL x) y))).
      assert (P3 : forall x y z w, D4 t x (sscale k y) z w = sscale k (D4 t x y z w)) by (intros x y z w; rewrite (proj2 (LL x) (sscale k y) z w), P2; f_equal; apply (proj2 (LL x))).
      assert (P4 : forall x y z w, D4 t (sscale k x) y z w = sscale k (D4 t x y z w)) by (intros x y z w; rewrite (SS (sscale k x) y z w), P3; f_equal; apply SS).
      rewrite P1, P2, P3, P4, !sscale_mul. f_equal; ring. }
    assert (Em : sscale h (main t h) = ev 17 (G c) t h).
    { unfold main, p1, p2, p3, p4. rewrite !(lin_add _ L1), !(lin_scale _ L1), !(lin_add _ (proj1 L2 _)). rewrite !B2, !B3, !B4.
      cbn [ev ord G]. unfold tr. cbv beta iota zeta. set (F := f0 t).
      generalize (D1 t F) (D2 t F F). intros F1 F2. set (F3 := D1 t F1).
      generalize (D3 t F F F) (D2 t F F1) (D4 t F F F F) (D3 t F F F1) (D2 t F F2) (D2 t F F3) (D2 t F1 F1). intros. clearbody F3 F.
      generalize (D1 t F2) (D1 t F3). intros. state_field. }
    rewrite <- Em. generalize (main t h). intros. unfold ssub. state_ring.
  Qed.
End BigO.
