(** Forces given by expressions are smooth. *)
From Coq Require Import Reals Lra Lia Psatz.
From Coquelicot Require Import Coquelicot.
From Verif Require Import Base BaseFacts Vec TracingModel TracingFacts ConvSpec ConvFacts ConvStep ExprSpec SeriesFacts.
Local Open Scope R_scope.

Fixpoint diff (i : nat) (e : expr) : expr :=
  match e with
  | EConst _ => EConst 0
  | EVar j => EConst (if (i =? j)%nat then 1 else 0)
  | EAdd a b => EAdd (diff i a) (diff i b)
  | EMul a b => EAdd (EMul (diff i a) b) (EMul a (diff i b))
  | EPow a k => EMul (EConst (- INR k / 2)) (EMul (EPow a (k + 2)) (diff i a))
  | ELn a => EMul (EPow a 2) (diff i a)
  end.
Lemma regular_diff c i e s : regular c e s -> regular c (diff i e) s.
Proof. induction e as [x|j|a IHa b IHb|a IHa b IHb|a IHa k|a IHa]; cbn; try tauto. Qed.
Definition sum6 (g : nat -> R) : R := g 0%nat + g 1%nat + g 2%nat + g 3%nat + g 4%nat + g 5%nat.
Lemma comp_line s d tau i : comp (sadd s (sscale tau d)) i = comp s i + tau * comp d i.
Proof. do 6 (destruct i as [|i]; [reflexivity|]). cbn. ring. Qed.
Lemma eval_derive c e s d tau : 0 < c -> regular c e (sadd s (sscale tau d)) ->
  is_derive (fun tau => eval e (sadd s (sscale tau d))) tau (sum6 (fun i => comp d i * eval (diff i e) (sadd s (sscale tau d)))).
Proof.
  intros Hc. unfold sum6. induction e as [x|j|a IHa b IHb|a IHa b IHb|a IHa k|a IHa]; cbn [regular eval diff]; intros Hr.
  - eapply is_derive_eq; [apply (is_derive_const (V := R_NormedModule))|]. change (zero : R) with 0. cbn [eval diff]. rewrite !Rmult_0_r. lra.
  - apply (is_derive_ext (fun tau => comp s j + tau * comp d j)); [intros x; rewrite comp_line; reflexivity|].
    apply (is_derive_eq _ _ (comp d j)); [auto_derive; [exact I|ring]|].
    do 6 (destruct j as [|j]; [cbn [Nat.eqb eval]; ring|]). cbn [Nat.eqb comp eval]. ring.
  - specialize (IHa (proj1 Hr)). specialize (IHb (proj2 Hr)). pose proof (is_derive_plus _ _ _ _ _ IHa IHb) as D. eapply is_derive_eq; [exact D|]. unfold plus; cbn. ring.
  - specialize (IHa (proj1 Hr)). specialize (IHb (proj2 Hr)). pose proof (is_derive_mult _ _ _ _ _ IHa IHb (fun a b => Rmult_comm a b)) as D. eapply is_derive_eq; [exact D|]. unfold plus, mult; cbn. ring.
  - destruct Hr as [Hp Hr]. specialize (IHa Hr). set (v := eval a (sadd s (sscale tau d))) in *. assert (Hv : 0 < v) by lra. pose proof (sqrt_lt_R0 v Hv) as Hs.
    assert (Dk : is_derive (fun y => (/ sqrt y) ^ k) v (- INR k / 2 * (/ sqrt v) ^ (k + 2))).
    { auto_derive; [split; [lra|split; [lra|exact I]]|]. destruct k as [|k]; [cbn [INR pred pow Nat.add]; field; lra|].
      cbn [pred]. rewrite pow_add. replace ((/ sqrt v) ^ S k) with (/ sqrt v * (/ sqrt v) ^ k) by reflexivity. field. lra. }
    pose proof (is_derive_comp _ _ _ _ _ Dk IHa) as D. eapply is_derive_eq; [exact D|]. unfold scal; cbn. unfold mult; cbn. fold v. set (w := (/ sqrt v) ^ (k + 2)). ring.
  - destruct Hr as [Hp Hr]. specialize (IHa Hr). set (v := eval a (sadd s (sscale tau d))) in *. assert (Hv : 0 < v) by lra. pose proof (sqrt_lt_R0 v Hv) as Hs.
    pose proof (is_derive_comp ln (fun tau => eval a (sadd s (sscale tau d))) tau (/ v) _ (is_derive_ln v Hv) IHa) as D. eapply is_derive_eq; [exact D|]. unfold scal; cbn. unfold mult; cbn. fold v.
    replace (/ v) with (/ sqrt v * (/ sqrt v * 1)); [ring|]. rewrite Rmult_1_r, <- Rinv_mult. f_equal. apply sqrt_sqrt. lra.
Qed.
Fixpoint TT (l : list state) (e : expr) (s : state) : R :=
  match l with [] => eval e s | a :: l => sum6 (fun i => comp a i * TT l (diff i e) s) end.
Lemma sum6_ext g g' : (forall i, g i = g' i) -> sum6 g = sum6 g'.
Proof. intros H. unfold sum6. rewrite !H. reflexivity. Qed.
Lemma TT_add l1 : forall a b l2 e s, TT (l1 ++ sadd a b :: l2) e s = TT (l1 ++ a :: l2) e s + TT (l1 ++ b :: l2) e s.
Proof.
  induction l1 as [|x l1 IH]; intros a b l2 e s; cbn [app TT].
  - unfold sum6. cbn [comp sadd vadd s_pos s_vel vx vy vz]. ring.
  - rewrite (sum6_ext _ _ (fun i => f_equal (Rmult (comp x i)) (IH a b l2 (diff i e) s))). unfold sum6. ring.
Qed.
Lemma TT_scale l1 : forall k a l2 e s, TT (l1 ++ sscale k a :: l2) e s = k * TT (l1 ++ a :: l2) e s.
Proof.
  induction l1 as [|x l1 IH]; intros k a l2 e s; cbn [app TT].
  - unfold sum6. cbn [comp sscale vscale s_pos s_vel vx vy vz]. ring.
  - rewrite (sum6_ext _ _ (fun i => f_equal (Rmult (comp x i)) (IH k a l2 (diff i e) s))). unfold sum6. ring.
Qed.
Lemma TT_derive c s d tau : 0 < c -> forall l e, regular c e (sadd s (sscale tau d)) ->
  is_derive (fun tau => TT l e (sadd s (sscale tau d))) tau (TT (l ++ [d]) e (sadd s (sscale tau d))).
Proof.
  intros Hc. induction l as [|a l IH]; intros e Hr; cbn [app TT].
  - apply (eval_derive c); assumption.
  - unfold sum6.
    assert (Q : forall i, is_derive (fun tau => comp a i * TT l (diff i e) (sadd s (sscale tau d))) tau (comp a i * TT (l ++ [d]) (diff i e) (sadd s (sscale tau d)))) by (intros i; apply is_derive_scal; apply IH; apply regular_diff; exact Hr).
    repeat apply (is_derive_plus (V := R_NormedModule)); apply Q.
Qed.
(** bounds *)
Definition small (Rb : R) (s : state) : Prop := forall i, Rabs (comp s i) <= Rb.
Lemma eval_bound c Rb : 0 < c -> 0 <= Rb -> forall e, exists B, 0 <= B /\ forall s, small Rb s -> regular c e s -> Rabs (eval e s) <= B.
Proof.
  intros Hc HR. induction e as [x|j|a [A [HA Ha]] b [B [HB Hb]]|a [A [HA Ha]] b [B [HB Hb]]|a _ k|a [A [HA Ha]]].
  - exists (Rabs x). split; [apply Rabs_pos|]. intros. cbn. lra.
  - exists Rb. split; [exact HR|]. intros s Hs _. apply Hs.
  - exists (A + B). split; [lra|]. intros s Hs [Ra Rb']. cbn [eval]. eapply Rle_trans; [apply Rabs_triang|]. specialize (Ha s Hs Ra). specialize (Hb s Hs Rb'). lra.
  - exists (A * B). split; [nra|]. intros s Hs [Ra Rb']. cbn [eval]. rewrite Rabs_mult. apply Rmult_le_compat; auto using Rabs_pos.
  - exists ((/ sqrt c) ^ k). pose proof (sqrt_lt_R0 c Hc) as P. pose proof (Rinv_0_lt_compat _ P) as P'. split; [apply pow_le; lra|]. intros s _ [Hp _]. cbn [eval].
    pose proof (sqrt_le_1 c (eval a s) ltac:(lra) ltac:(lra) Hp) as Q. pose proof (Rinv_le_contravar _ _ P Q) as Q'. assert (0 < / sqrt (eval a s)) by (apply Rinv_0_lt_compat; lra).
    rewrite Rabs_pos_eq by (apply pow_le; lra). apply pow_incr. lra.
  - exists (Rabs (ln c) + Rabs (ln (A + c))). split; [pose proof (Rabs_pos (ln c)); pose proof (Rabs_pos (ln (A + c))); lra|]. intros s Hs [Hp Hr]. cbn [eval]. specialize (Ha s Hs Hr). pose proof (Rle_abs (eval a s)).
    assert (L : ln c <= ln (eval a s)) by (apply ln_le; lra). assert (U : ln (eval a s) <= ln (A + c)) by (apply ln_le; lra).
    unfold Rabs in *. repeat destruct (Rcase_abs _); lra.
Qed.
Lemma comp_snorm s i : Rabs (comp s i) <= snorm s.
Proof.
  unfold snorm. pose proof (Rabs_pos (vx (s_pos s))). pose proof (Rabs_pos (vy (s_pos s))). pose proof (Rabs_pos (vz (s_pos s))). pose proof (Rabs_pos (vx (s_vel s))). pose proof (Rabs_pos (vy (s_vel s))). pose proof (Rabs_pos (vz (s_vel s))).
  do 6 (destruct i as [|i]; [cbn; lra|]). cbn. rewrite Rabs_R0. lra.
Qed.
Fixpoint prodn (l : list state) : R := match l with [] => 1 | a :: l => snorm a * prodn l end.
Lemma prodn_pos l : 0 <= prodn l.
Proof. induction l as [|a l IH]; cbn; [lra|]. pose proof (snorm_pos a). nra. Qed.
Lemma TT_bound c Rb : 0 < c -> 0 <= Rb -> forall n e, exists B, 0 <= B /\ forall l s, length l = n -> small Rb s -> regular c e s -> Rabs (TT l e s) <= B * prodn l.
Proof.
  intros Hc HR. induction n as [|n IH]; intros e.
  - destruct (eval_bound c Rb Hc HR e) as (B & HB & H). exists B. split; [exact HB|]. intros [|a l] s El; [|discriminate]. intros Hs Hr. cbn. specialize (H s Hs Hr). lra.
  - destruct (IH (diff 0 e)) as (A0 & P0 & Q0). destruct (IH (diff 1 e)) as (A1 & P1 & Q1). destruct (IH (diff 2 e)) as (A2 & P2 & Q2). destruct (IH (diff 3 e)) as (A3 & P3 & Q3). destruct (IH (diff 4 e)) as (A4 & P4 & Q4). destruct (IH (diff 5 e)) as (A5 & P5 & Q5).
    exists (A0 + A1 + A2 + A3 + A4 + A5). split; [lra|]. intros [|a l] s El; [discriminate|]. injection El as El. intros Hs Hr. cbn [TT prodn].
    assert (T1 : forall i A, 0 <= A -> Rabs (TT l (diff i e) s) <= A * prodn l -> Rabs (comp a i * TT l (diff i e) s) <= A * (snorm a * prodn l)).
    { intros i A HA H. rewrite Rabs_mult. replace (A * (snorm a * prodn l)) with (snorm a * (A * prodn l)) by ring. apply Rmult_le_compat; try apply Rabs_pos; [apply comp_snorm|exact H]. }
    pose proof (T1 0%nat A0 P0 (Q0 l s El Hs (regular_diff _ _ _ _ Hr))). pose proof (T1 1%nat A1 P1 (Q1 l s El Hs (regular_diff _ _ _ _ Hr))). pose proof (T1 2%nat A2 P2 (Q2 l s El Hs (regular_diff _ _ _ _ Hr))).
    pose proof (T1 3%nat A3 P3 (Q3 l s El Hs (regular_diff _ _ _ _ Hr))). pose proof (T1 4%nat A4 P4 (Q4 l s El Hs (regular_diff _ _ _ _ Hr))). pose proof (T1 5%nat A5 P5 (Q5 l s El Hs (regular_diff _ _ _ _ Hr))).
    unfold sum6. repeat (eapply Rle_trans; [apply Rabs_triang|]; rewrite ?Rmult_plus_distr_r; apply Rplus_le_compat; [|assumption]). assumption.
Qed.
(** Taylor's formula *)
Lemma mvt_increase (f f' : R -> R) B : 0 <= B -> f 0 = 0 -> (forall s, 0 <= s <= 1 -> is_derive f s (f' s)) -> (forall s, 0 <= s <= 1 -> Rabs (f' s) <= B) -> forall s, 0 <= s <= 1 -> Rabs (f s) <= B.
Proof.
  intros HB H0 D Hb s Hs. eapply Rle_trans; [apply (mvt_real f f' s B)|]; [lra|exact H0|intros; apply D; lra|intros; apply Hb; lra|]. nra.
Qed.
Lemma taylor5 (p : nat -> R -> R) B : 0 <= B -> (forall k s, (k <= 4)%nat -> 0 <= s <= 1 -> is_derive (p k) s (p (S k) s)) -> (forall s, 0 <= s <= 1 -> Rabs (p 5%nat s) <= B) ->
  Rabs (p 0%nat 1 - (p 0%nat 0 + p 1%nat 0 + p 2%nat 0 / 2 + p 3%nat 0 / 6 + p 4%nat 0 / 24)) <= B.
Proof.
  intros HB D H5.
  assert (Q4 : forall s, 0 <= s <= 1 -> Rabs (p 4%nat s - p 4%nat 0) <= B).
  { apply (mvt_increase _ (p 5%nat)); [exact HB|ring| |exact H5]. intros s Hs. pose proof (D 4%nat s ltac:(lia) Hs) as E. eapply is_derive_eq; [apply (is_derive_minus (V := R_NormedModule)); [exact E|apply is_derive_const]|]. unfold minus, plus, opp, zero; cbn. ring. }
  assert (Q3 : forall s, 0 <= s <= 1 -> Rabs (p 3%nat s - (p 3%nat 0 + p 4%nat 0 * s)) <= B).
  { apply (mvt_increase _ (fun s => p 4%nat s - p 4%nat 0)); [exact HB|ring| |exact Q4]. intros s Hs. pose proof (D 3%nat s ltac:(lia) Hs) as E. eapply is_derive_eq; [apply (is_derive_minus (V := R_NormedModule)); [exact E|]|reflexivity]. auto_derive; [exact I|ring]. }
  assert (Q2 : forall s, 0 <= s <= 1 -> Rabs (p 2%nat s - (p 2%nat 0 + p 3%nat 0 * s + p 4%nat 0 * s ^ 2 / 2)) <= B).
  { apply (mvt_increase _ (fun s => p 3%nat s - (p 3%nat 0 + p 4%nat 0 * s))); [exact HB|field| |exact Q3]. intros s Hs. pose proof (D 2%nat s ltac:(lia) Hs) as E. eapply is_derive_eq; [apply (is_derive_minus (V := R_NormedModule)); [exact E|]|reflexivity]. auto_derive; [exact I|field]. }
  assert (Q1 : forall s, 0 <= s <= 1 -> Rabs (p 1%nat s - (p 1%nat 0 + p 2%nat 0 * s + p 3%nat 0 * s ^ 2 / 2 + p 4%nat 0 * s ^ 3 / 6)) <= B).
  { apply (mvt_increase _ (fun s => p 2%nat s - (p 2%nat 0 + p 3%nat 0 * s + p 4%nat 0 * s ^ 2 / 2))); [exact HB|field| |exact Q2]. intros s Hs. pose proof (D 1%nat s ltac:(lia) Hs) as E. eapply is_derive_eq; [apply (is_derive_minus (V := R_NormedModule)); [exact E|]|reflexivity]. auto_derive; [exact I|field]. }
  assert (Q0 : forall s, 0 <= s <= 1 -> Rabs (p 0%nat s - (p 0%nat 0 + p 1%nat 0 * s + p 2%nat 0 * s ^ 2 / 2 + p 3%nat 0 * s ^ 3 / 6 + p 4%nat 0 * s ^ 4 / 24)) <= B).
  { apply (mvt_increase _ (fun s => p 1%nat s - (p 1%nat 0 + p 2%nat 0 * s + p 3%nat 0 * s ^ 2 / 2 + p 4%nat 0 * s ^ 3 / 6))); [exact HB|field| |exact Q1]. intros s Hs. pose proof (D 0%nat s ltac:(lia) Hs) as E. eapply is_derive_eq; [apply (is_derive_minus (V := R_NormedModule)); [exact E|]|reflexivity]. auto_derive; [exact I|field]. }
  specialize (Q0 1 ltac:(lra)). rewrite !pow1, !Rmult_1_r in Q0. exact Q0.
Qed.
