(** Bounds on the axial derivatives of rings and current loops (used by C78 to C80). *)
From Coq Require Import Reals ZArith Lra Lia Psatz.
From Coquelicot Require Import Coquelicot.
From Verif Require Import Base BaseFacts Vec GeomModel OutwardFacts FieldModel FieldFacts SeriesModel SeriesFacts.
Local Open Scope R_scope.

(** Legendre polynomials at c = cos theta, with the companion that makes each step a rotation of a contraction. *)
Fixpoint legendre (n : nat) (c s : R) : R * R :=
  match n with
  | 0%nat => (1, 0)
  | S m => let '(p, w) := legendre m c s in
           let k := INR m / INR (S m) in (c * p - k * s * w, s * p + k * c * w)
  end.
Definition leg n c s := fst (legendre n c s).
Definition legw n c s := snd (legendre n c s).
Lemma leg_S n c s : leg (S n) c s = c * leg n c s - INR n / INR (S n) * s * legw n c s.
Proof. unfold leg, legw. cbn [legendre]. destruct (legendre n c s). reflexivity. Qed.
Lemma legw_S n c s : legw (S n) c s = s * leg n c s + INR n / INR (S n) * c * legw n c s.
Proof. unfold leg, legw. cbn [legendre]. destruct (legendre n c s). reflexivity. Qed.
Lemma INR_S_pos n : 0 < INR (S n).
Proof. apply lt_0_INR. lia. Qed.
Lemma leg_sum n c s : c ^ 2 + s ^ 2 = 1 -> leg n c s ^ 2 + legw n c s ^ 2 <= 1.
Proof.
  intros H. induction n as [|n IH]; [unfold leg, legw; cbn; lra|]. rewrite leg_S, legw_S. pose proof (INR_S_pos n) as P. pose proof (pos_INR n) as Q.
  set (k := INR n / INR (S n)). assert (K : 0 <= k <= 1).
  { unfold k. split; [apply Rmult_le_pos; [exact Q|apply Rlt_le, Rinv_0_lt_compat; exact P]|]. apply (Rmult_le_reg_r (INR (S n))); [exact P|]. unfold Rdiv. rewrite Rmult_assoc, Rinv_l by lra. rewrite S_INR in *. lra. }
  set (a := leg n c s) in *. set (b := legw n c s) in *. clearbody k a b.
  replace ((c * a - k * s * b) ^ 2 + (s * a + k * c * b) ^ 2) with ((c ^ 2 + s ^ 2) * (a ^ 2 + k ^ 2 * b ^ 2)) by ring. rewrite H.
  assert (k ^ 2 * b ^ 2 <= 1 * b ^ 2) by (apply Rmult_le_compat_r; [apply pow2_ge_0|nra]). lra.
Qed.
Lemma sqr_le_1 x : x ^ 2 <= 1 -> Rabs x <= 1.
Proof. intros H. apply Rabs_le. nra. Qed.
Lemma leg_bound n c s : c ^ 2 + s ^ 2 = 1 -> Rabs (leg n c s) <= 1.
Proof. intros H. pose proof (leg_sum n c s H). apply sqr_le_1. pose proof (pow2_ge_0 (legw n c s)). lra. Qed.
Lemma legw_bound n c s : c ^ 2 + s ^ 2 = 1 -> Rabs (legw n c s) <= 1.
Proof. intros H. pose proof (leg_sum n c s H). apply sqr_le_1. pose proof (pow2_ge_0 (leg n c s)). lra. Qed.
Lemma leg_prev n c s : c ^ 2 + s ^ 2 = 1 -> leg n c s - c * leg (S n) c s = s * legw (S n) c s.
Proof.
  intros H. rewrite leg_S, legw_S. replace (leg n c s) with ((c ^ 2 + s ^ 2) * leg n c s) at 1 by (rewrite H; ring). ring.
Qed.
Lemma leg_rec n c s : c ^ 2 + s ^ 2 = 1 -> INR (S (S n)) * leg (S (S n)) c s = (2 * INR (S n) + 1) * c * leg (S n) c s - INR (S n) * leg n c s.
Proof.
  intros H. rewrite (leg_S (S n)). pose proof (leg_prev n c s H) as E. pose proof (INR_S_pos (S n)) as P.
  replace (c * leg (S n) c s - INR (S n) / INR (S (S n)) * s * legw (S n) c s) with (c * leg (S n) c s - INR (S n) / INR (S (S n)) * (s * legw (S n) c s)) by ring.
  rewrite <- E. rewrite (S_INR (S n)) in *. field. lra.
Qed.
Lemma legw_rec n c s : c ^ 2 + s ^ 2 = 1 ->
  INR (S (S n)) * INR (S n) * legw (S (S n)) c s = (2 * INR (S n) + 1) * INR (S n) * c * legw (S n) c s - INR n * INR (S (S n)) * legw n c s.
Proof.
  intros H. rewrite (legw_S (S n)), (leg_S n). pose proof (INR_S_pos n) as P. pose proof (INR_S_pos (S n)) as P2.
  assert (E : s * (c * leg n c s - INR n / INR (S n) * s * legw n c s) = c * legw (S n) c s - INR n / INR (S n) * legw n c s).
  { rewrite legw_S. replace (INR n / INR (S n) * legw n c s) with ((c ^ 2 + s ^ 2) * (INR n / INR (S n) * legw n c s)) by (rewrite H; ring). ring. }
  rewrite E. clear E. set (b := legw (S n) c s). set (d := legw n c s). clearbody b d. rewrite (S_INR (S n)), (S_INR n) in *. field. lra.
Qed.

Lemma fact_S n : INR (fact (S n)) = INR (S n) * INR (fact n).
Proof. rewrite fact_simpl, mult_INR. reflexivity. Qed.
(** the axial derivatives are Legendre polynomials of the angle *)
Lemma ring_pair_leg u rho s : rho <> 0 -> (u / rho) ^ 2 + s ^ 2 = 1 -> forall n,
  fst (ring_pair n u rho) = (-1) ^ n * INR (fact n) / rho ^ (S n) * leg n (u / rho) s.
Proof.
  intros Hr Hc. set (c := u / rho) in *. assert (Eu : u = c * rho) by (unfold c; field; exact Hr).
  assert (G : forall n, fst (ring_pair n u rho) = (-1) ^ n * INR (fact n) / rho ^ (S n) * leg n c s /\
                        fst (ring_pair (S n) u rho) = (-1) ^ (S n) * INR (fact (S n)) / rho ^ (S (S n)) * leg (S n) c s).
  { induction n as [|n [IH1 IH2]].
    - split.
      + unfold leg. cbn. field. exact Hr.
      + rewrite leg_S. unfold leg, legw. cbn [ring_pair legendre fst snd]. rewrite Eu. cbn. field. exact Hr.
    - split; [exact IH2|].
      assert (E : fst (ring_pair (S (S n)) u rho) = -1 / rho ^ 2 * ((2 * INR (S n) + 1) * u * fst (ring_pair (S n) u rho) + INR (S n) ^ 2 * fst (ring_pair n u rho))).
      { cbn [ring_pair]. destruct (ring_pair n u rho) as [a b]. reflexivity. }
      rewrite E, IH1, IH2. clear E IH1 IH2.
      assert (L : INR (fact (S (S n))) * leg (S (S n)) c s = INR (S n) * INR (fact n) * ((2 * INR (S n) + 1) * c * leg (S n) c s - INR (S n) * leg n c s)).
      { rewrite <- (leg_rec n c s Hc), !fact_S. ring. }
      replace ((-1) ^ S (S n) * INR (fact (S (S n))) / rho ^ S (S (S n)) * leg (S (S n)) c s) with ((-1) ^ S (S n) / rho ^ S (S (S n)) * (INR (fact (S (S n))) * leg (S (S n)) c s)) by (unfold Rdiv; ring).
      rewrite L, fact_S. rewrite Eu. cbn [pow]. field. split; [apply pow_nonzero|]; exact Hr. }
  intros n. apply G.
Qed.
Lemma unit_circle u r : 0 < norm_2d u r -> (u / norm_2d u r) ^ 2 + (r / norm_2d u r) ^ 2 = 1.
Proof. intros H. pose proof (norm_2d_sqr u r) as E. replace ((u / norm_2d u r) ^ 2 + (r / norm_2d u r) ^ 2) with ((u ^ 2 + r ^ 2) / norm_2d u r ^ 2) by (field; lra). rewrite <- E. field. lra. Qed.
Lemma ring_D_leg r n u : 0 < norm_2d u r -> ring_D r n u = (-1) ^ n * INR (fact n) / norm_2d u r ^ (S n) * leg n (u / norm_2d u r) (r / norm_2d u r).
Proof. intros H. unfold ring_D. apply ring_pair_leg; [lra|apply unit_circle; exact H]. Qed.
Lemma current_D_leg r n u : 0 < norm_2d u r -> current_D r (S n) u = / 2 * (-1) ^ (S n) * INR (fact (S n)) / norm_2d u r ^ (S n) * ((r / norm_2d u r) * legw (S n) (u / norm_2d u r) (r / norm_2d u r)).
Proof.
  intros Hp. pose proof (unit_circle u r Hp) as Hc. set (rho := norm_2d u r) in *. set (c := u / rho) in *. set (s := r / rho) in *.
  assert (Eu : u = c * rho) by (unfold c; field; lra). assert (Er : r = s * rho) by (unfold s; field; lra).
  assert (G : forall n, current_D r (S n) u = / 2 * (-1) ^ (S n) * INR (fact (S n)) / rho ^ (S n) * (s * legw (S n) c s) /\
                        current_D r (S (S n)) u = / 2 * (-1) ^ (S (S n)) * INR (fact (S (S n))) / rho ^ (S (S n)) * (s * legw (S (S n)) c s)).
  { assert (W1 : legw 1 c s = s) by (rewrite legw_S; unfold leg, legw; cbn; field).
    assert (E1 : current_D r 1 u = / 2 * (-1) ^ 1 * INR (fact 1) / rho ^ 1 * (s * legw 1 c s)).
    { rewrite current_D_1, W1. fold rho. rewrite Er. cbn. field. lra. }
    assert (Step : forall n, INR (fact (S (S n))) * legw (S (S n)) c s = INR (fact n) * ((2 * INR (S n) + 1) * INR (S n) * c * legw (S n) c s - INR n * INR (S (S n)) * legw n c s)).
    { intros m. rewrite <- (legw_rec m c s Hc), !fact_S. ring. }
    induction n0 as [|m [IH1 IH2]].
    - split; [exact E1|]. rewrite current_D_SS, E1, W1. fold rho.
      assert (W2 : legw 2 c s = 3 / 2 * c * s). { pose proof (legw_rec 0 c s Hc) as L. rewrite W1 in L. cbn [INR] in L. lra. }
      rewrite W2. generalize (current_D r 0 u). intros d0. rewrite Eu. clearbody c s rho. cbn. field. lra.
    - split; [exact IH2|]. rewrite current_D_SS, IH1, IH2. fold rho.
      replace (/ 2 * (-1) ^ S (S (S m)) * INR (fact (S (S (S m)))) / rho ^ S (S (S m)) * (s * legw (S (S (S m))) c s))
        with (/ 2 * (-1) ^ S (S (S m)) / rho ^ S (S (S m)) * s * (INR (fact (S (S (S m)))) * legw (S (S (S m))) c s)) by (unfold Rdiv; ring).
      rewrite Step, (fact_S (S m)), Eu, !S_INR. cbn [pow]. field. split; [apply pow_nonzero|]; lra. }
  apply (G n).
Qed.

Lemma div_bound x k rho n : 0 < rho -> 0 <= k -> Rabs x <= 1 -> Rabs ((-1) ^ n * k / rho ^ n * x) <= k / rho ^ n.
Proof.
  intros H Hk Hx. assert (P : 0 < / rho ^ n) by (apply Rinv_0_lt_compat, pow_lt; exact H).
  unfold Rdiv. rewrite !Rabs_mult, (pow_1_abs n), Rmult_1_l, (Rabs_pos_eq k), (Rabs_pos_eq (/ rho ^ n)) by lra.
  rewrite <- (Rmult_1_r (k * / rho ^ n)) at 2. apply Rmult_le_compat_l; [apply Rmult_le_pos; lra|exact Hx].
Qed.

Lemma ring_D_bound r n u : 0 < norm_2d u r -> Rabs (ring_D r n u) <= INR (fact n) / norm_2d u r ^ (S n).
Proof.
  intros H. rewrite ring_D_leg by exact H. replace ((-1) ^ n) with ((-1) ^ S n * -1) by (cbn [pow]; pose proof (pow_1_even 0); ring).
  replace ((-1) ^ S n * -1 * INR (fact n) / norm_2d u r ^ S n * leg n (u / norm_2d u r) (r / norm_2d u r))
    with ((-1) ^ S n * INR (fact n) / norm_2d u r ^ S n * - leg n (u / norm_2d u r) (r / norm_2d u r)) by (unfold Rdiv; ring).
  apply div_bound; [exact H|apply pos_INR|]. rewrite Rabs_Ropp. apply leg_bound, unit_circle, H.
Qed.
Lemma current_D_bound r n u : 0 < norm_2d u r -> Rabs (current_D r (S n) u) <= Rabs r / 2 * (INR (fact (S n)) / norm_2d u r ^ (S (S n))).
Proof.
  intros H. rewrite current_D_leg by exact H.
  replace (/ 2 * (-1) ^ S n * INR (fact (S n)) / norm_2d u r ^ S n * (r / norm_2d u r * legw (S n) (u / norm_2d u r) (r / norm_2d u r)))
    with (r / 2 / norm_2d u r * ((-1) ^ S n * INR (fact (S n)) / norm_2d u r ^ S n * legw (S n) (u / norm_2d u r) (r / norm_2d u r)))
    by (field; split; [|apply pow_nonzero]; lra).
  pose proof (div_bound (legw (S n) (u / norm_2d u r) (r / norm_2d u r)) (INR (fact (S n))) (norm_2d u r) (S n) H (pos_INR _) (legw_bound _ _ _ (unit_circle u r H))) as B.
  rewrite Rabs_mult. unfold Rdiv at 1 2. rewrite !Rabs_mult, (Rabs_pos_eq (/ 2)), (Rabs_pos_eq (/ norm_2d u r)) by (try lra; apply Rlt_le, Rinv_0_lt_compat; exact H).
  replace (Rabs r / 2 * (INR (fact (S n)) / norm_2d u r ^ S (S n))) with (Rabs r * / 2 * / norm_2d u r * (INR (fact (S n)) / norm_2d u r ^ S n))
    by (cbn [pow]; field; split; [apply pow_nonzero|]; lra).
  rewrite !Rabs_mult in B. apply Rmult_le_compat_l; [|unfold Rdiv in *; rewrite ?Rabs_mult in *; exact B]. apply Rmult_le_pos; [apply Rmult_le_pos; [apply Rabs_pos|lra]|apply Rlt_le, Rinv_0_lt_compat; exact H].
Qed.
