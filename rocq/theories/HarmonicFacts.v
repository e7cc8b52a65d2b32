(** Expansion of the potential of a point charge around the axis. *)
From Coq Require Import Reals ZArith Lra Lia Psatz.
From Coquelicot Require Import Coquelicot.
From Verif Require Import Base BaseFacts Vec OutwardFacts SeriesFacts.
Local Open Scope R_scope.

(** ** n-th derivatives from a chain of derivatives near a point *)
Lemma local_chain (D : nat -> R -> R) (f : R -> R) (x0 : R) :
  locally x0 (fun t => f t = D 0%nat t /\ forall n, is_derive (D n) t (D (S n) t)) -> forall n, is_derive_n f n x0 (D n x0).
Proof.
  intros H.
  assert (L : forall n, locally x0 (fun t => Derive_n f n t = D n t)).
  { induction n as [|n IH].
    - eapply filter_imp; [|exact H]. intros t [E _]. exact E.
    - apply locally_locally in IH. pose proof (filter_and _ _ IH H) as B. eapply filter_imp; [|exact B].
      intros t [E [_ C]]. cbn. rewrite (Derive_ext_loc _ _ _ E). apply is_derive_unique, C. }
  intros [|n].
  - cbn. apply (locally_singleton _ _ H).
  - cbn. apply (is_derive_ext_loc (D n)); [|apply (locally_singleton _ _ H)].
    eapply filter_imp; [|exact (L n)]. intros t E. symmetry. exact E.
Qed.

(** ** Derivatives of 1 / sqrt (t^2 - 2 c t + d) *)
Definition quadr (c d t : R) : R := t * t - 2 * c * t + d.
Fixpoint gen_pair (n : nat) (c d t : R) : R * R :=
  match n with
  | O => (1 / sqrt (quadr c d t), (c - t) / (quadr c d t * sqrt (quadr c d t)))
  | S _ as n => match n with O => (0, 0) | S m => let '(a, b) := gen_pair m c d t in (b, ((2 * INR n + 1) * (c - t) * b - INR n ^ 2 * a) / quadr c d t) end
  end.
Definition G (n : nat) (c d t : R) : R := fst (gen_pair n c d t).
Lemma gen_snd n c d t : snd (gen_pair n c d t) = G (S n) c d t.
Proof. unfold G. destruct n as [|n]; cbn; [reflexivity|]. destruct (gen_pair n c d t). reflexivity. Qed.
Lemma G_SS n c d t : G (S (S n)) c d t = ((2 * INR (S n) + 1) * (c - t) * G (S n) c d t - INR (S n) ^ 2 * G n c d t) / quadr c d t.
Proof.
  rewrite <- (gen_snd (S n)), <- (gen_snd n). unfold G. change (gen_pair (S n) c d t) with (let '(a, b) := gen_pair n c d t in (b, ((2 * INR (S n) + 1) * (c - t) * b - INR (S n) ^ 2 * a) / quadr c d t)).
  destruct (gen_pair n c d t) as [a b]. reflexivity.
Qed.
Lemma G_derive c d (t : R) : 0 < quadr c d t -> forall n, is_derive (G n c d) t (G (S n) c d t).
Proof.
  intros Q. assert (S0 : 0 < sqrt (quadr c d t)) by (apply sqrt_lt_R0; exact Q). pose proof (sqrt_sqrt (quadr c d t) ltac:(lra)) as SS.
  assert (DQ : is_derive (quadr c d) t (- 2 * (c - t))) by (unfold quadr; auto_derive; [exact I|ring]).
  assert (DI : is_derive (fun u => / quadr c d u) t (2 * (c - t) / quadr c d t ^ 2)).
  { eapply is_derive_eq; [apply (is_derive_inv (quadr c d) t); [exact DQ|lra]|]. field. lra. }
  assert (E0 : is_derive (G 0 c d) t (G 1 c d t)).
  { apply (is_derive_ext (fun u => / sqrt (quadr c d u))); [intros u; unfold G; cbn; unfold Rdiv; ring|].
    eapply is_derive_eq; [apply (is_derive_inv (fun u => sqrt (quadr c d u)) t); [apply (is_derive_sqrt (quadr c d) t); [exact DQ|exact Q]|lra]|].
    unfold G. cbn. set (q := sqrt (quadr c d t)) in *. rewrite <- SS. field. lra. }
  assert (P : forall n, is_derive (G n c d) t (G (S n) c d t) /\ is_derive (G (S n) c d) t (G (S (S n)) c d t)).
  { induction n as [|n [IH1 IH2]].
    - split; [exact E0|].
      apply (is_derive_ext (fun u => (c - u) * (G 0 c d u * / quadr c d u))).
      { intros u. unfold G. cbn. unfold Rdiv. rewrite Rinv_mult. ring. }
      eapply is_derive_eq.
      + apply (is_derive_mult (fun u => c - u) (fun u => G 0 c d u * / quadr c d u) t).
        * instantiate (1 := -1). auto_derive; [exact I|ring].
        * apply (is_derive_mult (G 0 c d) (fun u => / quadr c d u) t); [exact E0|exact DI|intros; apply Rmult_comm].
        * intros; apply Rmult_comm.
      + rewrite G_SS. unfold plus, mult. cbn [INR]. cbn -[G pow]. unfold mult. cbn -[G pow].
        assert (G1 : G 1 c d t = (c - t) * G 0 c d t / quadr c d t) by (unfold G; cbn; field; lra). rewrite G1. field. lra.
    - split; [exact IH2|].
      apply (is_derive_ext (fun u => ((2 * INR (S n) + 1) * ((c - u) * G (S n) c d u) - INR (S n) ^ 2 * G n c d u) * / quadr c d u)).
      { intros u. rewrite G_SS. match goal with |- ?l = ?r => change (@eq R l r) end. unfold Rdiv. ring. }
      eapply is_derive_eq.
      + apply (is_derive_mult (fun u => (2 * INR (S n) + 1) * ((c - u) * G (S n) c d u) - INR (S n) ^ 2 * G n c d u) (fun u => / quadr c d u) t).
        * apply (is_derive_minus (fun u => (2 * INR (S n) + 1) * ((c - u) * G (S n) c d u)) (fun u => INR (S n) ^ 2 * G n c d u)).
          -- apply (is_derive_scal (fun u => (c - u) * G (S n) c d u)). apply (is_derive_mult (fun u => c - u) (G (S n) c d) t); [|exact IH2|intros; apply Rmult_comm]. instantiate (1 := -1). auto_derive; [exact I|ring].
          -- apply (is_derive_scal (G n c d)). exact IH1.
        * exact DI.
        * intros; apply Rmult_comm.
      + rewrite (G_SS (S n)). unfold minus, plus, opp, mult, scal. cbn -[G pow INR]. unfold mult. cbn -[G pow INR].
        rewrite (G_SS n). set (g0 := G n c d t). set (g1 := G (S n) c d t). rewrite !S_INR. field. lra. }
  intros n. apply P.
Qed.

(** ** Legendre polynomials *)
Fixpoint legendre_pair (n : nat) (x : R) : R * R :=
  match n with
  | O => (1, x)
  | S m => let '(a, b) := legendre_pair m x in (b, ((2 * INR (S m) + 1) * x * b - INR (S m) * a) / INR (S (S m)))
  end.
Definition legendre n x := fst (legendre_pair n x).
Lemma legendre_SS n x : legendre (S (S n)) x = ((2 * INR (S n) + 1) * x * legendre (S n) x - INR (S n) * legendre n x) / INR (S (S n)).
Proof.
  assert (S1 : forall k, snd (legendre_pair k x) = legendre (S k) x) by (intros k; unfold legendre; cbn; destruct (legendre_pair k x); reflexivity).
  rewrite <- (S1 (S n)), <- (S1 n). unfold legendre. change (legendre_pair (S n) x) with (let '(a, b) := legendre_pair n x in (b, ((2 * INR (S n) + 1) * x * b - INR (S n) * a) / INR (S (S n)))).
  destruct (legendre_pair n x) as [a b]. reflexivity.
Qed.
Lemma G_at_0 c d : 0 < d -> forall n, G n c (d ^ 2) 0 = INR (fact n) / d ^ (S n) * legendre n (c / d).
Proof.
  intros Hd. assert (Q : quadr c (d ^ 2) 0 = d ^ 2) by (unfold quadr; ring). assert (SQ : sqrt (d ^ 2) = d) by (rewrite <- (sqrt_pow2 d) at 2; [reflexivity|lra]).
  assert (P : forall n, G n c (d ^ 2) 0 = INR (fact n) / d ^ (S n) * legendre n (c / d) /\ G (S n) c (d ^ 2) 0 = INR (fact (S n)) / d ^ (S (S n)) * legendre (S n) (c / d)).
  { induction n as [|n [IH1 IH2]].
    - split; unfold G; cbn -[quadr pow]; rewrite Q, SQ; cbn; field; lra.
    - split; [exact IH2|]. rewrite G_SS, IH1, IH2, legendre_SS, Q. rewrite (fact_simpl (S n)), mult_INR, (fact_simpl n), mult_INR.
      set (l0 := legendre n (c / d)). set (l1 := legendre (S n) (c / d)).
      change (d ^ S (S (S n))) with (d * (d * (d * d ^ n))). change (d ^ S (S n)) with (d * (d * d ^ n)). change (d ^ S n) with (d * d ^ n).
      assert (N1 : d ^ n <> 0) by (apply pow_nonzero; lra). assert (N2 : INR (S (S n)) <> 0) by (apply not_0_INR; lia).
      field. repeat split; try assumption; lra. }
  intros n. apply P.
Qed.

(** ** Cosine expansion of legendre n (s cos t) *)
Definition shift (b : nat -> R) (m : nat) : R :=
  match m with
  | O => b 1%nat / 2
  | S O => b 0%nat + b 2%nat / 2
  | S (S j) => (b (S j) + b (S (S (S j)))) / 2
  end.
Fixpoint fourier_pair (n : nat) (s : R) : (nat -> R) * (nat -> R) :=
  match n with
  | O => (fun m => if (m =? 0)%nat then 1 else 0, fun m => if (m =? 1)%nat then s else 0)
  | S m => let '(a, b) := fourier_pair m s in (b, fun j => ((2 * INR (S m) + 1) * s * shift b j - INR (S m) * a j) / INR (S (S m)))
  end.
Definition H (n m : nat) (s : R) : R := fst (fourier_pair n s) m.
Lemma H_SS n m s : H (S (S n)) m s = ((2 * INR (S n) + 1) * s * shift (fun j => H (S n) j s) m - INR (S n) * H n m s) / INR (S (S n)).
Proof.
  assert (S1 : forall k, snd (fourier_pair k s) = fst (fourier_pair (S k) s)) by (intros k; cbn; destruct (fourier_pair k s); reflexivity).
  unfold H. rewrite <- (S1 (S n)), <- (S1 n). change (fourier_pair (S n) s) with (let '(a, b) := fourier_pair n s in (b, fun j => ((2 * INR (S n) + 1) * s * shift b j - INR (S n) * a j) / INR (S (S n)))).
  destruct (fourier_pair n s) as [a b]. reflexivity.
Qed.
Fixpoint fsum (b : nat -> R) (t : R) (N : nat) : R := match N with O => 0 | S k => fsum b t k + b k * cos (INR k * t) end.
Lemma fsum_ext b b' t N : (forall m, b m = b' m) -> fsum b t N = fsum b' t N.
Proof. intros E. induction N as [|N IH]; cbn; [reflexivity|]. rewrite IH, E. reflexivity. Qed.
Lemma fsum_lin a b x y t N : fsum (fun m => x * a m + y * b m) t N = x * fsum a t N + y * fsum b t N.
Proof. induction N as [|N IH]; cbn; [ring|]. rewrite IH. ring. Qed.
Lemma cos_product t k : cos t * cos (INR (S k) * t) = (cos (INR (S (S k)) * t) + cos (INR k * t)) / 2.
Proof.
  replace (INR (S (S k)) * t) with (INR (S k) * t + t) by (rewrite (S_INR (S k)); ring). replace (INR k * t) with (INR (S k) * t - t) by (rewrite S_INR; ring).
  rewrite cos_plus, cos_minus. field.
Qed.
Lemma fsum_shift_tail b t N : cos t * fsum b t (S (S N)) = fsum (shift b) t (S (S N)) + (b (S N) * cos (INR (S (S N)) * t) - b (S (S N)) * cos (INR (S N) * t)) / 2.
Proof.
  induction N as [|N IH].
  - pose proof (cos_product t 0) as C. cbn [fsum shift]. replace (INR 1 * t) with t in * by (cbn; ring). replace (INR 0 * t) with 0 in * by (cbn; ring). rewrite cos_0 in *.
    transitivity (b 0%nat * cos t + b 1%nat * (cos t * cos t)); [ring|]. rewrite C. field.
  - change (fsum b t (S (S (S N)))) with (fsum b t (S (S N)) + b (S (S N)) * cos (INR (S (S N)) * t)).
    change (fsum (shift b) t (S (S (S N)))) with (fsum (shift b) t (S (S N)) + (b (S N) + b (S (S (S N)))) / 2 * cos (INR (S (S N)) * t)).
    rewrite Rmult_plus_distr_l, IH. transitivity (fsum (shift b) t (S (S N)) + (b (S N) * cos (INR (S (S N)) * t) - b (S (S N)) * cos (INR (S N) * t)) / 2 + b (S (S N)) * (cos t * cos (INR (S (S N)) * t))); [ring|].
    rewrite cos_product. field.
Qed.
Lemma H_high n m s : (n < m)%nat -> H n m s = 0.
Proof.
  assert (P : forall n, (forall m, (n < m)%nat -> H n m s = 0) /\ (forall m, (S n < m)%nat -> H (S n) m s = 0)).
  { clear. induction n as [|n [IH1 IH2]].
    - split; intros m Hm; unfold H; cbn; destruct m as [|[|m]]; try lia; reflexivity.
    - split; [exact IH2|]. intros m Hm. rewrite H_SS, (IH1 m) by lia. destruct m as [|[|j]]; try lia. cbn [shift]. rewrite !IH2 by lia. field. apply not_0_INR. lia. }
  apply P.
Qed.
Lemma H_parity n m s : Nat.odd (n + m) = true -> H n m s = 0.
Proof.
  assert (P : forall n, (forall m, Nat.odd (n + m) = true -> H n m s = 0) /\ (forall m, Nat.odd (S n + m) = true -> H (S n) m s = 0)).
  { clear. induction n as [|n [IH1 IH2]].
    - split; intros m Hm; unfold H; cbn; destruct m as [|[|m]]; try discriminate Hm; reflexivity.
    - split; [exact IH2|]. intros m Hm. assert (Hm1 : Nat.odd (n + m) = true) by exact Hm. rewrite H_SS, (IH1 m) by exact Hm1.
      assert (Z : shift (fun j => H (S n) j s) m = 0).
      { destruct m as [|[|j]]; cbn [shift].
        - rewrite IH2; [field|]. rewrite <- Hm. f_equal. lia.
        - rewrite (IH2 0%nat), (IH2 2%nat); [field| |]; rewrite <- Hm; [replace (S n + 2)%nat with (S (S n) + 1)%nat by lia; reflexivity|].
          replace (S (S n) + 1)%nat with (S (S (S n + 0)))%nat by lia. reflexivity.
        - rewrite (IH2 (S j)), (IH2 (S (S (S j)))); [field| |]; rewrite <- Hm.
          + f_equal. lia.
          + replace (S (S n) + S (S j))%nat with (S (S (S n + S j)))%nat by lia. reflexivity. }
      rewrite Z. field. apply not_0_INR. lia. }
  apply P.
Qed.
Lemma legendre_cos n s t : legendre n (s * cos t) = fsum (fun m => H n m s) t (S n).
Proof.
  assert (Ext : forall k N, fsum (fun m => H k m s) t (S k + N) = fsum (fun m => H k m s) t (S k)).
  { intros k N. induction N as [|N IH]; [f_equal; lia|]. replace (S k + S N)%nat with (S (S k + N))%nat by lia. set (b := fun m => H k m s) in *. change (fsum b t (S (S k + N))) with (fsum b t (S k + N) + b (S k + N)%nat * cos (INR (S k + N) * t)). unfold b at 2. rewrite IH, (H_high k) by lia. ring. }
  assert (P : forall n, legendre n (s * cos t) = fsum (fun m => H n m s) t (S n) /\ legendre (S n) (s * cos t) = fsum (fun m => H (S n) m s) t (S (S n))).
  { clear n. induction n as [|n [IH1 IH2]].
    - pose proof (Rmult_0_l t) as Z. pose proof (Rmult_1_l t) as U. split; unfold legendre, H; cbn; rewrite Z, ?U, cos_0; ring.
    - split; [exact IH2|]. rewrite legendre_SS, IH1, IH2.
      set (x := (2 * INR (S n) + 1) * s / INR (S (S n))). set (y := - INR (S n) / INR (S (S n))).
      assert (N2 : INR (S (S n)) <> 0) by (apply not_0_INR; lia).
      rewrite (fsum_ext (fun m => H (S (S n)) m s) (fun m => x * shift (fun j => H (S n) j s) m + y * H n m s)) by (intros m; rewrite (H_SS n m s); unfold x, y; field; exact N2).
      rewrite fsum_lin. replace (S (S (S n))) with (S n + 2)%nat at 2 by lia. rewrite (Ext n 2%nat).
      pose proof (fsum_shift_tail (fun j => H (S n) j s) t (S n)) as T. cbv beta in T. rewrite !(H_high (S n)) in T by lia.
      replace (S (S (S n))) with (S (S n) + 1)%nat in T at 1 by lia. rewrite (Ext (S n) 1%nat) in T.
      assert (T' : fsum (shift (fun j => H (S n) j s)) t (S (S (S n))) = cos t * fsum (fun m => H (S n) m s) t (S (S n))) by lra.
      rewrite T'. unfold x, y. field. exact N2. }
  apply P.
Qed.
