(** The error of quintic Hermite interpolation (used by C78). *)
From Coq Require Import Reals Lra Lia Psatz.
From Coquelicot Require Import Coquelicot.
From Verif Require Import Base BaseFacts Vec GeomModel FieldModel SeriesModel SeriesFacts InterpFacts.
Local Open Scope R_scope.

Lemma rolle (f f' : R -> R) (a b : R) : a < b -> (forall x : R, is_derive f x (f' x)) -> f a = 0 -> f b = 0 -> exists c, a < c < b /\ f' c = 0.
Proof.
  intros Hab Hf Ha Hb. destruct (MVT_cor2 f f' a b Hab) as (c & E & Hc).
  - intros c _. apply is_derive_Reals. apply Hf.
  - exists c. split; [exact Hc|]. rewrite Ha, Hb in E. assert (f' c * (b - a) = 0) by lra. apply Rmult_integral in H. destruct H; [exact H|lra].
Qed.
(** three zeros, the outer two of multiplicity three *)
Lemma rolle6 (G : nat -> R -> R) (a x b : R) : (forall n (t : R), is_derive (G n) t (G (S n) t)) -> a < x < b ->
  G 0%nat a = 0 -> G 0%nat x = 0 -> G 0%nat b = 0 -> G 1%nat a = 0 -> G 1%nat b = 0 -> G 2%nat a = 0 -> G 2%nat b = 0 ->
  exists c, a < c < b /\ G 6%nat c = 0.
Proof.
  intros D Hx A0 X0 B0 A1 B1 A2 B2.
  destruct (rolle _ _ a x ltac:(lra) (D 0%nat) A0 X0) as (p1 & ? & P1). destruct (rolle _ _ x b ltac:(lra) (D 0%nat) X0 B0) as (p2 & ? & P2).
  destruct (rolle _ _ a p1 ltac:(lra) (D 1%nat) A1 P1) as (q1 & ? & Q1). destruct (rolle _ _ p1 p2 ltac:(lra) (D 1%nat) P1 P2) as (q2 & ? & Q2).
  destruct (rolle _ _ p2 b ltac:(lra) (D 1%nat) P2 B1) as (q3 & ? & Q3).
  destruct (rolle _ _ a q1 ltac:(lra) (D 2%nat) A2 Q1) as (r1 & ? & R1). destruct (rolle _ _ q1 q2 ltac:(lra) (D 2%nat) Q1 Q2) as (r2 & ? & R2).
  destruct (rolle _ _ q2 q3 ltac:(lra) (D 2%nat) Q2 Q3) as (r3 & ? & R3). destruct (rolle _ _ q3 b ltac:(lra) (D 2%nat) Q3 B2) as (r4 & ? & R4).
  destruct (rolle _ _ r1 r2 ltac:(lra) (D 3%nat) R1 R2) as (s1 & ? & S1). destruct (rolle _ _ r2 r3 ltac:(lra) (D 3%nat) R2 R3) as (s2 & ? & S2).
  destruct (rolle _ _ r3 r4 ltac:(lra) (D 3%nat) R3 R4) as (s3 & ? & S3).
  destruct (rolle _ _ s1 s2 ltac:(lra) (D 4%nat) S1 S2) as (t1 & ? & T1). destruct (rolle _ _ s2 s3 ltac:(lra) (D 4%nat) S2 S3) as (t2 & ? & T2).
  destruct (rolle _ _ t1 t2 ltac:(lra) (D 5%nat) T1 T2) as (c & ? & C). exists c. split; [lra|exact C].
Qed.

(** the derivatives of a polynomial of degree five and of t^3 (h-t)^3 *)
Definition poly_chain (c : poly6) (n : nat) (t : R) : R :=
  let '(c0, c1, c2, c3, c4, c5) := c in
  match n with
  | 0%nat => poly_at c t | 1%nat => poly_at' c t | 2%nat => poly_at'' c t | 3%nat => poly_at''' c t
  | 4%nat => 120 * c0 * t + 24 * c1 | 5%nat => 120 * c0 | _ => 0
  end.
Lemma poly_chain_derive c n (t : R) : is_derive (poly_chain c n) t (poly_chain c (S n) t).
Proof.
  destruct c as (((((c0, c1), c2), c3), c4), c5).
  destruct n as [|[|[|[|[|[|n]]]]]]; cbn [poly_chain].
  - apply poly_derive.
  - apply poly_derive'.
  - apply poly_derive''.
  - change (is_derive (fun s : R => 60 * c0 * s ^ 2 + 24 * c1 * s + 6 * c2) t (120 * c0 * t + 24 * c1)). auto_derive; [exact I|ring].
  - change (is_derive (fun s : R => 120 * c0 * s + 24 * c1) t (120 * c0)). auto_derive; [exact I|ring].
  - change (is_derive (fun _ : R => 120 * c0) t 0). apply (is_derive_const (120 * c0)).
  - change (is_derive (fun _ : R => 0) t 0). apply (is_derive_const 0).
Qed.
Definition bump (h : R) (n : nat) (t : R) : R :=
  match n with
  | 0%nat => h ^ 3 * t ^ 3 - 3 * h ^ 2 * t ^ 4 + 3 * h * t ^ 5 - t ^ 6
  | 1%nat => 3 * h ^ 3 * t ^ 2 - 12 * h ^ 2 * t ^ 3 + 15 * h * t ^ 4 - 6 * t ^ 5
  | 2%nat => 6 * h ^ 3 * t - 36 * h ^ 2 * t ^ 2 + 60 * h * t ^ 3 - 30 * t ^ 4
  | 3%nat => 6 * h ^ 3 - 72 * h ^ 2 * t + 180 * h * t ^ 2 - 120 * t ^ 3
  | 4%nat => - 72 * h ^ 2 + 360 * h * t - 360 * t ^ 2
  | 5%nat => 360 * h - 720 * t
  | 6%nat => - 720
  | _ => 0
  end.
Lemma bump_derive h n (t : R) : is_derive (bump h n) t (bump h (S n) t).
Proof. destruct n as [|[|[|[|[|[|[|n]]]]]]]; unfold bump; first [apply (is_derive_const (V := R_NormedModule)) | auto_derive; [exact I|ring]]. Qed.
Lemma bump_0 h t : bump h 0 t = (t * (h - t)) ^ 3.
Proof. cbn [bump]. ring. Qed.
Lemma bump_bound h t : 0 <= t <= h -> 0 <= bump h 0 t <= h ^ 6 / 64.
Proof.
  intros H. rewrite bump_0. assert (A : 0 <= t * (h - t)) by nra. assert (B : t * (h - t) <= h ^ 2 / 4) by (pose proof (pow2_ge_0 (h - 2 * t)); nra).
  split; [apply pow_le; exact A|]. replace (h ^ 6 / 64) with ((h ^ 2 / 4) ^ 3) by field. apply pow_incr. split; assumption.
Qed.

(** the interpolating polynomial differs from the function at most by h^6/46080 times its sixth derivative *)
Lemma hermite_error (D : nat -> R -> R) (c : poly6) (a h M x : R) : 0 < h ->
  (forall n (t : R), is_derive (D n) t (D (S n) t)) -> (forall t, a <= t <= a + h -> Rabs (D 6%nat t) <= M) ->
  poly_at c 0 = D 0%nat a -> poly_at' c 0 = D 1%nat a -> poly_at'' c 0 = D 2%nat a ->
  poly_at c h = D 0%nat (a + h) -> poly_at' c h = D 1%nat (a + h) -> poly_at'' c h = D 2%nat (a + h) ->
  0 <= x <= h -> Rabs (poly_at c x - D 0%nat (a + x)) <= M * h ^ 6 / 46080.
Proof.
  intros Hh HD HM A0 A1 A2 B0 B1 B2 Hx.
  assert (Hc : exists c0 c1 c2 c3 c4 c5, c = (c0, c1, c2, c3, c4, c5)) by (destruct c as (((((c0, c1), c2), c3), c4), c5); repeat eexists).
  destruct Hc as (c0 & c1 & c2 & c3 & c4 & c5 & Ec).
  assert (HM0 : 0 <= M) by (eapply Rle_trans; [apply Rabs_pos|apply (HM a); lra]).
  assert (Pos : 0 <= M * h ^ 6 / 46080).
  { apply Rmult_le_pos; [apply Rmult_le_pos; [exact HM0|apply pow_le; lra]|lra]. }
  destruct (Req_EM_T x 0) as [->|N0]; [rewrite A0, Rplus_0_r, Rminus_eq_0, Rabs_R0; exact Pos|].
  destruct (Req_EM_T x h) as [->|Nh]; [rewrite B0, Rminus_eq_0, Rabs_R0; exact Pos|].
  assert (Hx' : 0 < x < h) by lra. assert (W : 0 < bump h 0 x) by (rewrite bump_0; apply pow_lt; nra).
  set (K := (D 0%nat (a + x) - poly_at c x) / bump h 0 x).
  assert (EK : K * bump h 0 x = D 0%nat (a + x) - poly_at c x) by (unfold K; field; lra).
  destruct (rolle6 (fun n t => D n (a + t) - poly_chain c n t - K * bump h n t) 0 x h) as (xi & Hxi & E).
  - intros n t.
    assert (D1 : is_derive (fun s => D n (a + s)) t (D (S n) (a + t))).
    { evar_last; [apply (is_derive_comp (D n) (fun s => a + s) t (D (S n) (a + t)) 1); [apply HD|auto_derive; [exact I|reflexivity]]|]. unfold scal; cbn; unfold mult; cbn. ring. }
    apply (is_derive_minus (fun s => D n (a + s) - poly_chain c n s) (fun s => K * bump h n s)).
    + apply (is_derive_minus (fun s => D n (a + s)) (poly_chain c n)); [exact D1|apply poly_chain_derive].
    + apply (is_derive_scal (bump h n) t K). apply bump_derive.
  - exact Hx'.
  - subst c. cbn [poly_chain]. rewrite A0, Rplus_0_r. cbn [bump]. ring.
  - subst c. cbn [poly_chain]. rewrite EK. ring.
  - subst c. cbn [poly_chain]. rewrite B0. cbn [bump]. ring.
  - subst c. cbn [poly_chain]. rewrite A1, Rplus_0_r. cbn [bump]. ring.
  - subst c. cbn [poly_chain]. rewrite B1. cbn [bump]. ring.
  - subst c. cbn [poly_chain]. rewrite A2, Rplus_0_r. cbn [bump]. ring.
  - subst c. cbn [poly_chain]. rewrite B2. cbn [bump]. ring.
  - assert (E6 : D 6%nat (a + xi) = - 720 * K). { subst c. cbn [poly_chain bump] in E. lra. }
    assert (BK : Rabs K <= M / 720).
    { pose proof (HM (a + xi) ltac:(lra)) as H6. rewrite E6, Rabs_mult, (Rabs_left (-720)) in H6 by lra. lra. }
    pose proof (bump_bound h x ltac:(lra)) as BB.
    rewrite Rabs_minus_sym, <- EK, Rabs_mult, (Rabs_pos_eq (bump h 0 x)) by lra.
    apply Rle_trans with (M / 720 * (h ^ 6 / 64)).
    + apply Rmult_le_compat; [apply Rabs_pos|lra|exact BK|lra].
    + right. field.
Qed.
