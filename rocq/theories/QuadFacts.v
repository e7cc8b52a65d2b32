(** Facts about the integration rules. *)
From Coq Require Import Reals Lra Lia QArith Qpower Qabs Qreals.
From Coquelicot Require Import Coquelicot.
From Verif Require Import Base BaseFacts Vec GeomModel GeomFacts Tables QuadModel OutwardFacts.
Local Open Scope R_scope.

(** ** Specification: polynomials given by their coefficients *)
Fixpoint poly_from (n : nat) (cs : list R) (x : R) : R :=
  match cs with [] => 0 | c :: t => c * x ^ n + poly_from (S n) t x end.
(** [poly \[c0; c1; ...\] x = c0 + c1 x + c2 x^2 + ...] *)
Definition poly (cs : list R) (x : R) : R := poly_from 0 cs x.
(** The sum of the absolute values of the coefficients. *)
Definition abs_sum (cs : list R) : R := Rsum (map Rabs cs).

(** Polynomials in two variables: terms (coefficient, power of x, power of y). *)
Definition poly2 (ts : list (R * nat * nat)) (x y : R) : R :=
  Rsum (map (fun t => let '(c, i, j) := t in c * x ^ i * y ^ j) ts).
Definition abs_sum2 (ts : list (R * nat * nat)) : R := Rsum (map (fun t => Rabs (fst (fst t))) ts).

(** ** Moments *)
Definition moment (n : nat) : Q := ((1 - (-1) ^ Z.of_nat (S n)) / inject_Z (Z.of_nat (S n)))%Q.

Lemma Q2R_pow q n : Q2R (q ^ Z.of_nat n) = Q2R q ^ n.
Proof.
  induction n as [|n IH]; [unfold Q2R; simpl; field|].
  rewrite Nat2Z.inj_succ. unfold Z.succ.
  destruct (Qeq_dec q 0) as [E|E].
  - rewrite (Qeq_eqR (q ^ (Z.of_nat n + 1)) 0).
    + rewrite (Qeq_eqR q 0 E). unfold Q2R; simpl. ring.
    + rewrite E. apply Qpower_0. lia.
  - rewrite (Qeq_eqR (q ^ (Z.of_nat n + 1)) (q ^ Z.of_nat n * q)).
    + rewrite Q2R_mult, IH. simpl. ring.
    + rewrite Qpower_plus by assumption. apply Qmult_inj_l with (z := (q^Z.of_nat n)%Q).
      * apply Qpower_not_0. assumption.
      * reflexivity.
Qed.

Lemma Q2R_IZR z : Q2R (inject_Z z) = IZR z.
Proof. unfold Q2R, inject_Z; simpl. field. Qed.

Lemma ex_derive_cont (f : R -> R) x : ex_derive f x -> continuous f x.
Proof. apply (@ex_derive_continuous R_AbsRing R_NormedModule f x). Qed.

Ltac as_R := match goal with |- @eq _ ?a ?b => change (@eq R a b) end.
Lemma is_RInt_eq (f : R -> R) (a b l l' : R) : l = l' -> is_RInt f a b l -> is_RInt f a b l'.
Proof. intros <-; auto. Qed.
Lemma is_RInt_zero a b : is_RInt (fun _ : R => 0) a b 0.
Proof.
  refine (is_RInt_eq _ _ _ _ _ _ (@is_RInt_const R_NormedModule a b 0)).
  unfold scal; simpl; unfold mult; simpl; ring.
Qed.

Lemma RInt_scal_R (f : R -> R) a b k : ex_RInt f a b ->
  RInt (fun y => k * f y) a b = k * RInt f a b.
Proof.
  intros H. apply is_RInt_unique. apply (is_RInt_scal f). apply (@RInt_correct R_CompleteNormedModule). exact H.
Qed.
Lemma RInt_plus_R (f g : R -> R) a b : ex_RInt f a b -> ex_RInt g a b ->
  RInt (fun y => f y + g y) a b = RInt f a b + RInt g a b.
Proof.
  intros H H'. apply is_RInt_unique.
  apply (is_RInt_plus f g); apply (@RInt_correct R_CompleteNormedModule); assumption.
Qed.

Lemma is_RInt_pow n a b :
  is_RInt (fun x => x ^ n) a b ((b ^ S n - a ^ S n) / INR (S n)).
Proof.
  assert (Hn : INR (S n) <> 0) by (apply not_0_INR; lia).
  replace ((b ^ S n - a ^ S n) / INR (S n)) with (minus (b ^ S n / INR (S n)) (a ^ S n / INR (S n)))
    by (unfold minus, plus, opp; simpl; field; assumption).
  apply (is_RInt_derive (fun x => x ^ S n / INR (S n)) (fun x => x ^ n)).
  - intros x _. auto_derive; [exact I|].
    simpl Init.Nat.pred. change (match n with 0%nat => 1 | S _ => INR n + 1 end) with (INR (S n)).
    field. assumption.
  - intros x _. apply (ex_derive_cont (fun x => x ^ n)). auto_derive. exact I.
Qed.

Lemma moment_R n : Q2R (moment n) = (1 ^ S n - (-1) ^ S n) / INR (S n).
Proof.
  unfold moment, Qdiv. rewrite Q2R_mult, Q2R_minus, Q2R_inv.
  - rewrite Q2R_pow, Q2R_IZR, <- INR_IZR_INZ. replace (Q2R 1) with 1 by (unfold Q2R; simpl; field).
    replace (Q2R (-1)) with (-1) by (unfold Q2R; simpl; field). rewrite pow1. reflexivity.
  - unfold Qeq, inject_Z; simpl. lia.
Qed.

Lemma is_RInt_poly n cs a b :
  is_RInt (poly_from n cs) a b
    (Rsum (map2 (fun c k => c * ((b ^ S k - a ^ S k) / INR (S k))) cs (seq n (length cs)))).
Proof.
  revert n. induction cs as [|c cs IH]; intros n.
  - apply is_RInt_zero.
  - cbn [poly_from length seq map2 Rsum].
    apply (is_RInt_plus (fun x => c * x ^ n) (poly_from (S n) cs)); [|apply IH].
    apply (is_RInt_scal (fun x => x ^ n)). apply is_RInt_pow.
Qed.

(** ** One-dimensional rules *)
Lemma rule_plus ns ws f g : rule ns ws (fun x => f x + g x) = rule ns ws f + rule ns ws g.
Proof.
  unfold rule. revert ws. induction ns as [|x ns IH]; intros [|w ws]; simpl; try ring. rewrite IH. ring.
Qed.
Lemma rule_scal ns ws k f : rule ns ws (fun x => k * f x) = k * rule ns ws f.
Proof.
  unfold rule. revert ws. induction ns as [|x ns IH]; intros [|w ws]; simpl; try ring. rewrite IH. ring.
Qed.
Lemma rule_zero ns ws : rule ns ws (fun _ => 0) = 0.
Proof. unfold rule. revert ws. induction ns as [|x ns IH]; intros [|w ws]; simpl; try ring. rewrite IH. ring. Qed.

Fixpoint Qsum (l : list Q) : Q := match l with [] => 0%Q | x :: t => (x + Qsum t)%Q end.

(** Sums of tables with a common denominator [D], on the numerators *)
Fixpoint Zsum (l : list Z) : Z := match l with [] => 0%Z | x :: t => (x + Zsum t)%Z end.
Definition zrule (ns ws : list Q) (k : nat) : Z :=
  Zsum (map2 (fun x w => Qnum w * Qnum x ^ Z.of_nat k)%Z ns ws).
Definition common_den (D : positive) (l : list Q) : bool := forallb (fun q => Pos.eqb (Qden q) D) l.

Lemma rule_pow D ns ws k : common_den D ns = true -> common_den D ws = true ->
  rule ns ws (fun x => x ^ k) = IZR (zrule ns ws k) / IZR (Zpos D) ^ S k.
Proof.
  assert (HD : IZR (Z.pos D) <> 0) by (apply IZR_neq; lia).
  assert (HDk : forall n, IZR (Z.pos D) ^ n <> 0) by (intros; apply pow_nonzero; assumption).
  unfold rule, zrule, common_den. revert ws.
  induction ns as [|x ns IH]; intros [|w ws] H1 H2; cbn [map2 Rsum Zsum forallb] in *;
    try (unfold Rdiv; ring).
  apply andb_true_iff in H1, H2. destruct H1 as [E1 H1], H2 as [E2 H2].
  apply Pos.eqb_eq in E1, E2. rewrite (IH ws H1 H2). rewrite plus_IZR, mult_IZR, <- pow_IZR.
  unfold Q2R. rewrite E1, E2. rewrite Rpow_mult_distr, pow_inv. simpl pow. field.
  split; [apply HDk|assumption].
Qed.

Definition moment_ok (D : positive) (ns ws : list Q) (tol : Q) (k : nat) : bool :=
  let k1 := Z.of_nat (S k) in
  let dk := (Z.pos D ^ k1)%Z in
  (Z.abs (k1 * zrule ns ws k - (1 - (-1) ^ k1) * dk) * QDen tol <=? Qnum tol * k1 * dk)%Z.

(** The same checks for k, k+1, ... with the powers computed incrementally: [terms] are the pairs
    (w x^k, x), [dk] is D^(k+1), [s] is (-1)^(k+1). *)
Fixpoint zcheck (n : nat) (D : Z) (tol : Q) (terms : list (Z * Z)) (k1 dk s : Z) : bool :=
  match n with
  | O => true
  | S n' =>
      (Z.abs (k1 * Zsum (map fst terms) - (1 - s) * dk) * QDen tol <=? Qnum tol * k1 * dk)%Z &&
      zcheck n' D tol (map (fun t => (fst t * snd t, snd t)%Z) terms) (k1 + 1)%Z (dk * D)%Z (- s)%Z
  end.
Definition moments_ok (D : positive) (ns ws : list Q) (d : nat) (tol : Q) : bool :=
  common_den D ns && common_den D ws &&
  zcheck (S d) (Z.pos D) tol (map2 (fun x w => (Qnum w, Qnum x)) ns ws) 1 (Z.pos D) (-1).

Lemma zcheck_ok D tol ns ws n : forall k,
  zcheck n (Z.pos D) tol (map2 (fun x w => (Qnum w * Qnum x ^ Z.of_nat k, Qnum x)%Z) ns ws)
    (Z.of_nat (S k)) (Z.pos D ^ Z.of_nat (S k))%Z ((-1) ^ Z.of_nat (S k))%Z = true ->
  forall i, (k <= i < k + n)%nat -> moment_ok D ns ws tol i = true.
Proof.
  induction n as [|n IH]; intros k H i Hi; [lia|]. cbn [zcheck] in H.
  apply andb_true_iff in H. destruct H as [H1 H2].
  assert (E1 : map fst (map2 (fun x w => (Qnum w * Qnum x ^ Z.of_nat k, Qnum x)%Z) ns ws) =
               map2 (fun x w => Qnum w * Qnum x ^ Z.of_nat k)%Z ns ws).
  { clear. revert ws. induction ns as [|x ns IH]; intros [|w ws]; simpl; try reflexivity. rewrite IH. reflexivity. }
  assert (P : forall z, (z ^ Z.of_nat k * z = z ^ Z.of_nat (S k))%Z).
  { intros z. rewrite Nat2Z.inj_succ, Z.pow_succ_r by lia. ring. }
  assert (E2 : map (fun t => (fst t * snd t, snd t)%Z)
                 (map2 (fun x w => (Qnum w * Qnum x ^ Z.of_nat k, Qnum x)%Z) ns ws) =
               map2 (fun x w => (Qnum w * Qnum x ^ Z.of_nat (S k), Qnum x)%Z) ns ws).
  { clear - P. revert ws. induction ns as [|x ns IH]; intros [|w ws]; cbn [map2 map]; try reflexivity.
    rewrite IH. cbn [fst snd]. rewrite <- Z.mul_assoc, P. reflexivity. }
  rewrite E1 in H1. rewrite E2 in H2.
  destruct (Nat.eq_dec i k) as [->|Hne]; [exact H1|].
  apply (IH (S k)); [|lia].
  replace (Z.of_nat (S (S k))) with (Z.of_nat (S k) + 1)%Z by lia.
  rewrite !Z.pow_add_r by lia. rewrite Z.pow_1_r.
  replace ((-1) ^ Z.of_nat (S k) * (-1) ^ 1)%Z with (- (-1) ^ Z.of_nat (S k))%Z by (rewrite Z.pow_1_r; ring).
  exact H2.
Qed.

Lemma Q2R_abs q : Q2R (Qabs q) = Rabs (Q2R q).
Proof.
  apply Qabs_case; intros H; apply Qle_Rle in H; replace (Q2R 0) with 0 in H by (unfold Q2R; simpl; field).
  - rewrite Rabs_pos_eq; auto.
  - rewrite Q2R_opp, Rabs_left1; auto.
Qed.

Lemma moments_ok_spec D ns ws d tol : moments_ok D ns ws d tol = true ->
  forall k, (k <= d)%nat -> Rabs (rule ns ws (fun x => x ^ k) - Q2R (moment k)) <= Q2R tol.
Proof.
  intros H k Hk. unfold moments_ok in H. apply andb_true_iff in H. destruct H as [H H3].
  apply andb_true_iff in H. destruct H as [H1 H2].
  assert (H4 : zcheck (S d) (Z.pos D) tol
     (map2 (fun x w => (Qnum w * Qnum x ^ Z.of_nat 0, Qnum x)%Z) ns ws)
     (Z.of_nat 1) (Z.pos D ^ Z.of_nat 1)%Z ((-1) ^ Z.of_nat 1)%Z = true).
  { change (Z.of_nat 1) with 1%Z. rewrite Z.pow_1_r, Z.pow_1_r. rewrite <- H3. f_equal.
    clear. revert ws. induction ns as [|x ns IH]; intros [|w ws]; cbn [map2]; try reflexivity.
    rewrite IH. change (Z.of_nat 0) with 0%Z. rewrite Z.pow_0_r, Z.mul_1_r. reflexivity. }
  clear H3. pose proof (zcheck_ok _ _ _ _ _ _ H4 k ltac:(lia)) as H3.
  unfold moment_ok in H3. apply Z.leb_le, IZR_le in H3.
  rewrite (rule_pow D) by assumption. rewrite moment_R, pow1.
  rewrite !mult_IZR, abs_IZR, !minus_IZR, !mult_IZR, !minus_IZR, <- !pow_IZR in H3.
  rewrite <- INR_IZR_INZ in H3.
  assert (HD : 0 < IZR (Z.pos D) ^ S k) by (apply pow_lt, IZR_lt; lia).
  assert (Hk1 : 0 < INR (S k)) by (apply lt_0_INR; lia).
  assert (Ht : 0 < IZR (QDen tol)) by (apply IZR_lt; reflexivity).
  set (z := IZR (zrule ns ws k)) in *. set (dk := IZR (Z.pos D) ^ S k) in *. set (n := INR (S k)) in *.
  set (s := (-1) ^ S k) in *.
  replace (z / dk - (1 - s) / n) with ((n * z - (1 - s) * dk) * / (n * dk)) by (field; lra).
  rewrite Rabs_mult, (Rabs_pos_eq (/ (n * dk))) by (left; apply Rinv_0_lt_compat, Rmult_lt_0_compat; assumption).
  unfold Q2R. change (Z.pos (Qden tol)) with (QDen tol).
  apply Rmult_le_reg_r with (n * dk); [apply Rmult_lt_0_compat; assumption|].
  apply Rmult_le_reg_r with (IZR (QDen tol)); [assumption|].
  eapply Rle_trans; [|eapply Rle_trans; [exact H3|]]; right; field; lra.
Qed.

Lemma rule_poly D ns ws d tol : moments_ok D ns ws d tol = true ->
  forall cs n, (n + length cs <= S d)%nat ->
  Rabs (rule ns ws (poly_from n cs) - RInt (poly_from n cs) (-1) 1) <= Q2R tol * abs_sum cs.
Proof.
  intros H. induction cs as [|c cs IH]; intros n Hn.
  - simpl. rewrite rule_zero. rewrite RInt_const. unfold scal; simpl; unfold mult; simpl.
    unfold abs_sum; simpl. rewrite !Rmult_0_r, Rminus_0_r, Rabs_R0. lra.
  - simpl in Hn.
    assert (E : rule ns ws (poly_from n (c :: cs)) - RInt (poly_from n (c :: cs)) (-1) 1 =
       c * (rule ns ws (fun x => x ^ n) - Q2R (moment n)) +
       (rule ns ws (poly_from (S n) cs) - RInt (poly_from (S n) cs) (-1) 1)).
    { cbn [poly_from]. rewrite rule_plus, rule_scal, moment_R.
      rewrite (is_RInt_unique (fun x => c * x ^ n + poly_from (S n) cs x) (-1) 1
        (c * ((1 ^ S n - (-1) ^ S n) / INR (S n)) + RInt (poly_from (S n) cs) (-1) 1)).
      - ring.
      - apply (is_RInt_plus (fun x => c * x ^ n) (poly_from (S n) cs)).
        + apply (is_RInt_scal (fun x => x ^ n)). apply is_RInt_pow.
        + apply (@RInt_correct R_CompleteNormedModule). eexists. apply is_RInt_poly. }
    rewrite E. eapply Rle_trans; [apply Rabs_triang|]. unfold abs_sum. cbn [map Rsum].
    rewrite Rmult_plus_distr_l. apply Rplus_le_compat; [|apply IH; lia].
    rewrite Rabs_mult, (Rmult_comm (Q2R tol)). apply Rmult_le_compat_l; [apply Rabs_pos|].
    apply (moments_ok_spec _ _ _ _ _ H). lia.
Qed.

(** The symmetric rules of kronrod.c as rules on [-1, 1] *)
Definition sym_nodes (ns : list Q) : list Q :=
  match ns with [] => [] | n0 :: t => n0 :: map Qopp t ++ t end.
Definition sym_weights (ws : list Q) : list Q :=
  match ws with [] => [] | w :: t => w :: t ++ t end.

Lemma map2_app {A B C} (f : A -> B -> C) l1 l2 m1 m2 : length l1 = length m1 ->
  map2 f (l1 ++ l2) (m1 ++ m2) = (map2 f l1 m1 ++ map2 f l2 m2)%list.
Proof.
  revert m1. induction l1 as [|a l1 IH]; intros [|b m1] H; simpl in *; try discriminate; [reflexivity|].
  f_equal. apply IH. congruence.
Qed.

Lemma symmetric_rule_eq ns ws f c h : length ns = length ws -> ns <> [] -> Qnum (hd 0%Q ns) = 0%Z ->
  symmetric_rule ns ws f c h = h * rule (sym_nodes ns) (sym_weights ws) (fun t => f (c + h * t)).
Proof.
  intros Hl Hne H0. destruct ns as [|n0 ns]; [congruence|]. simpl in H0. destruct ws as [|w0 ws]; [discriminate|].
  simpl in Hl. injection Hl as Hl. unfold symmetric_rule, rule, sym_nodes, sym_weights.
  cbn [map2 Rsum]. rewrite map2_app by (rewrite map_length; assumption). rewrite Rsum_app.
  replace (c + h * Q2R n0) with c by (unfold Q2R; rewrite H0; ring).
  set (g := fun (acc : R) (nw : Q * Q) => acc + h * Q2R (snd nw) * (f (c - h * Q2R (fst nw)) + f (c + h * Q2R (fst nw)))).
  assert (G : forall ns ws acc, length ns = length ws ->
    fold_left g (combine ns ws) acc =
    acc + h * (Rsum (map2 (fun x w => Q2R w * f (c + h * Q2R x)) (map Qopp ns) ws) +
               Rsum (map2 (fun x w => Q2R w * f (c + h * Q2R x)) ns ws))).
  { clear. induction ns as [|n ns IH]; intros [|w ws] acc Hl; try discriminate; simpl; [ring|].
    injection Hl as Hl. rewrite IH by assumption. unfold g at 1. simpl. rewrite Q2R_opp.
    replace (c + h * - Q2R n) with (c - h * Q2R n) by ring. ring. }
  change (fold_left g (combine ns ws) (h * Q2R w0 * f c) = h * (Q2R w0 * f c +
    (Rsum (map2 (fun x w => Q2R w * f (c + h * Q2R x)) (map Qopp ns) ws) +
     Rsum (map2 (fun x w => Q2R w * f (c + h * Q2R x)) ns ws)))).
  rewrite G by assumption. ring.
Qed.

Lemma gauss16_ok : moments_ok 10000000000000000 gauss_points gauss_weights 31 (1 # 10000000000000000) = true.
Proof. vm_compute. reflexivity. Qed.
Lemma g7_ok : moments_ok 1000000000000000 (sym_nodes g7_nodes) (sym_weights g7_weights) 13 (2 # 1000000000000000) = true.
Proof. vm_compute. reflexivity. Qed.
Lemma k15_ok : moments_ok 1000000000000000 (sym_nodes k15_nodes) (sym_weights k15_weights) 23 (1 # 1000000000000000) = true.
Proof. vm_compute. reflexivity. Qed.

(** ** The triangle rule *)
Fixpoint beta (m i : nat) : Q :=
  match m with
  | O => (1 / inject_Z (Z.of_nat (S i)))%Q
  | S m' => (inject_Z (Z.of_nat (S m')) / inject_Z (Z.of_nat (S i)) * beta m' (S i))%Q
  end.
Lemma Q2R_inv_S i : Q2R (/ inject_Z (Z.of_nat (S i))) = / INR (S i).
Proof.
  rewrite Q2R_inv; [rewrite Q2R_IZR, <- INR_IZR_INZ; reflexivity|]. unfold Qeq, inject_Z; simpl. lia.
Qed.
Lemma is_RInt_beta m : forall i, is_RInt (fun x => x ^ i * (1 - x) ^ m) 0 1 (Q2R (beta m i)).
Proof.
  induction m as [|m IH]; intros i.
  - apply is_RInt_ext with (f := fun x => x ^ i); [intros x _; simpl; ring|].
    replace (Q2R (beta 0 i)) with ((1 ^ S i - 0 ^ S i) / INR (S i)); [apply is_RInt_pow|].
    cbn [beta]. unfold Qdiv. rewrite Q2R_mult, Q2R_inv_S. rewrite pow1, pow_i by lia.
    replace (Q2R 1) with 1 by (unfold Q2R; simpl; field). unfold Rdiv. ring.
  - assert (Hi : INR (S i) <> 0) by (apply not_0_INR; lia).
    cbn [beta]. unfold Qdiv. rewrite !Q2R_mult, Q2R_inv_S, Q2R_IZR, <- INR_IZR_INZ.
    set (F := fun x => x ^ S i * (1 - x) ^ S m / INR (S i)).
    assert (D : is_RInt (fun x => x ^ i * (1 - x) ^ S m - INR (S m) / INR (S i) * (x ^ S i * (1 - x) ^ m)) 0 1 0).
    { replace 0 with (minus (F 1) (F 0)) at 2
        by (unfold F, minus, plus, opp; simpl; unfold Rdiv; ring).
      apply (is_RInt_derive F).
      - intros x _. unfold F. auto_derive; [exact I|].
        simpl Init.Nat.pred.
        change (match m with 0%nat => 1 | S _ => INR m + 1 end) with (INR (S m)).
        change (match i with 0%nat => 1 | S _ => INR i + 1 end) with (INR (S i)).
        replace (1 + - x) with (1 - x) by ring.
        change (x ^ S i) with (x * x ^ i). change ((1 - x) ^ S m) with ((1 - x) * (1 - x) ^ m).
        field. assumption.
      - intros x _. apply (ex_derive_cont (fun x => x ^ i * (1 - x) ^ S m - INR (S m) / INR (S i) * (x ^ S i * (1 - x) ^ m))).
        auto_derive. exact I. }
    pose proof (is_RInt_plus _ _ _ _ _ _ D (is_RInt_scal _ _ _ (INR (S m) / INR (S i)) _ (IH (S i)))) as P.
    refine (is_RInt_eq _ _ _ _ _ _ (is_RInt_ext _ _ _ _ _ _ P)).
    + unfold plus, scal; simpl; unfold mult; simpl. unfold Rdiv. ring.
    + intros x _. unfold plus, scal; simpl; unfold mult; simpl. ring.
Qed.

(** The moment of x^i y^j over the triangle x, y >= 0, x + y <= 1 *)
Definition moment2 (i j : nat) : Q := (beta (S j) i / inject_Z (Z.of_nat (S j)))%Q.
Lemma inner_RInt j x : RInt (fun y => y ^ j) 0 (1 - x) = (1 - x) ^ S j / INR (S j).
Proof.
  apply is_RInt_unique. refine (is_RInt_eq _ _ _ _ _ _ (is_RInt_pow j 0 (1 - x))).
  rewrite pow_i by lia. unfold Rdiv. ring.
Qed.
Lemma is_RInt_moment2 i j :
  is_RInt (fun x => RInt (fun y => x ^ i * y ^ j) 0 (1 - x)) 0 1 (Q2R (moment2 i j)).
Proof.
  apply is_RInt_ext with (f := fun x => / INR (S j) * (x ^ i * (1 - x) ^ S j)).
  - intros x _. rewrite (RInt_scal_R (fun y => y ^ j) 0 (1 - x) (x ^ i)).
    + as_R. rewrite inner_RInt. unfold Rdiv. ring.
    + eexists. apply is_RInt_pow.
  - unfold moment2, Qdiv. rewrite Q2R_mult, Q2R_inv_S, Rmult_comm.
    apply (is_RInt_scal (fun x => x ^ i * (1 - x) ^ S j)). apply is_RInt_beta.
Qed.

Lemma triangle12_plus f g : triangle12 (fun x y => f x y + g x y) = triangle12 f + triangle12 g.
Proof.
  unfold triangle12. generalize quad_b1 quad_b2 quad_weights.
  induction l as [|x a IH]; intros [|y b] [|z c]; simpl; try ring. rewrite IH. ring.
Qed.
Lemma triangle12_scal k f : triangle12 (fun x y => k * f x y) = k * triangle12 f.
Proof.
  unfold triangle12. generalize quad_b1 quad_b2 quad_weights.
  induction l as [|x a IH]; intros [|y b] [|z c]; simpl; try ring. rewrite IH. ring.
Qed.
Lemma triangle12_ext f g : (forall x y, f x y = g x y) -> triangle12 f = triangle12 g.
Proof.
  intros H. unfold triangle12. generalize quad_b1 quad_b2 quad_weights.
  induction l as [|x a IH]; intros [|y b] [|z c]; simpl; try ring. rewrite IH, H. ring.
Qed.

Definition zscaled (DW : positive) (w : Q) : Z := (Qnum w * (Z.pos DW / QDen w))%Z.
Definition ztriangle (DW : positive) (l1 l2 ws : list Q) (i j : nat) : Z :=
  Zsum (map3 (fun b1 b2 w => zscaled DW w * (Qnum b1 ^ Z.of_nat i * Qnum b2 ^ Z.of_nat j))%Z l1 l2 ws).
Definition divides_den (DW : positive) (l : list Q) : bool :=
  forallb (fun w => QDen w * (Z.pos DW / QDen w) =? Z.pos DW)%Z l.

Lemma scaled_R DW w : (QDen w * (Z.pos DW / QDen w) = Z.pos DW)%Z ->
  Q2R w = IZR (zscaled DW w) / IZR (Z.pos DW).
Proof.
  intros H. unfold zscaled, Q2R. rewrite mult_IZR.
  assert (H' : IZR (QDen w) * IZR (Z.pos DW / QDen w) = IZR (Z.pos DW)) by (rewrite <- mult_IZR, H; reflexivity).
  assert (HD : IZR (Z.pos DW) <> 0) by (apply IZR_neq; lia).
  assert (Hw : IZR (QDen w) <> 0) by (apply IZR_neq; lia).
  change (Z.pos (Qden w)) with (QDen w). apply Rmult_eq_reg_r with (IZR (Z.pos DW)); [|assumption].
  field_simplify; [|assumption|assumption]. rewrite <- H'. field. assumption.
Qed.

Lemma triangle_value DW D l1 l2 ws i j :
  common_den D l1 = true -> common_den D l2 = true -> divides_den DW ws = true ->
  Rsum (map3 (fun b1 b2 w => Q2R w * (Q2R b1 ^ i * Q2R b2 ^ j)) l1 l2 ws) =
  IZR (ztriangle DW l1 l2 ws i j) / (IZR (Z.pos DW) * IZR (Z.pos D) ^ (i + j)).
Proof.
  assert (HW : IZR (Z.pos DW) <> 0) by (apply IZR_neq; lia).
  assert (HD : forall n, IZR (Z.pos D) ^ n <> 0) by (intros; apply pow_nonzero, IZR_neq; lia).
  unfold ztriangle, common_den, divides_den. revert l2 ws.
  induction l1 as [|x l1 IH]; intros [|y l2] [|w ws] H1 H2 H3; cbn [map3 Rsum Zsum forallb] in *;
    try (unfold Rdiv; ring).
  apply andb_true_iff in H1, H2, H3. destruct H1 as [E1 H1], H2 as [E2 H2], H3 as [E3 H3].
  apply Pos.eqb_eq in E1, E2. apply Z.eqb_eq in E3. rewrite (IH l2 ws H1 H2 H3).
  rewrite plus_IZR, !mult_IZR, <- !pow_IZR. rewrite (scaled_R DW w E3).
  unfold Q2R. rewrite E1, E2. rewrite !Rpow_mult_distr, !pow_inv, pow_add.
  assert (HDR : IZR (Z.pos D) <> 0) by (apply IZR_neq; lia).
  field. repeat split; auto.
Qed.

Definition triangle_mono_ok (DW D : positive) (l1 l2 ws : list Q) (tol : Q) (i j : nat) : bool :=
  let m := moment2 i j in
  let d := (Z.pos DW * Z.pos D ^ Z.of_nat (i + j))%Z in
  (Z.abs (ztriangle DW l1 l2 ws i j * QDen m - Qnum m * d) * QDen tol <=? Qnum tol * QDen m * d)%Z.
Definition triangle_ok (DW D : positive) (l1 l2 ws : list Q) (deg : nat) (tol : Q) : bool :=
  common_den D l1 && common_den D l2 && divides_den DW ws &&
  forallb (fun i => forallb (fun j => (deg <? i + j)%nat || triangle_mono_ok DW D l1 l2 ws tol i j)
                            (seq 0 (S deg))) (seq 0 (S deg)).

Lemma triangle_ok_spec DW D l1 l2 ws deg tol i j :
  triangle_ok DW D l1 l2 ws deg tol = true -> (i + j <= deg)%nat ->
  Rabs (Rsum (map3 (fun b1 b2 w => Q2R w * (Q2R b1 ^ i * Q2R b2 ^ j)) l1 l2 ws) - Q2R (moment2 i j))
    <= Q2R tol.
Proof.
  intros H Hij. unfold triangle_ok in H. rewrite !andb_true_iff in H. destruct H as [[[H1 H2] H3] H].
  rewrite (triangle_value DW D) by assumption. rewrite forallb_forall in H.
  specialize (H i). rewrite in_seq in H. specialize (H ltac:(lia)). rewrite forallb_forall in H.
  specialize (H j). rewrite in_seq in H. specialize (H ltac:(lia)). apply orb_true_iff in H.
  destruct H as [H|H]; [apply Nat.ltb_lt in H; lia|]. unfold triangle_mono_ok in H.
  apply Z.leb_le, IZR_le in H.
  rewrite !mult_IZR, abs_IZR, !minus_IZR, !mult_IZR, <- !pow_IZR in H.
  set (z := IZR (ztriangle DW l1 l2 ws i j)) in *.
  set (d := IZR (Z.pos DW) * IZR (Z.pos D) ^ (i + j)) in *.
  assert (Hd : 0 < d) by (apply Rmult_lt_0_compat; [|apply pow_lt]; apply IZR_lt; lia).
  assert (Hm : 0 < IZR (QDen (moment2 i j))) by (apply IZR_lt; reflexivity).
  assert (Ht : 0 < IZR (QDen tol)) by (apply IZR_lt; reflexivity).
  unfold Q2R. change (Z.pos (Qden tol)) with (QDen tol).
  change (Z.pos (Qden (moment2 i j))) with (QDen (moment2 i j)).
  set (mn := IZR (Qnum (moment2 i j))) in *. set (md := IZR (QDen (moment2 i j))) in *.
  replace (z / d - mn * / md) with ((z * md - mn * d) * / (md * d)) by (field; lra).
  rewrite Rabs_mult, (Rabs_pos_eq (/ (md * d))) by (left; apply Rinv_0_lt_compat, Rmult_lt_0_compat; assumption).
  apply Rmult_le_reg_r with (md * d); [apply Rmult_lt_0_compat; assumption|].
  apply Rmult_le_reg_r with (IZR (QDen tol)); [assumption|].
  eapply Rle_trans; [|eapply Rle_trans; [exact H|]]; right; field; lra.
Qed.

Lemma triangle12_ok : triangle_ok 10000000000000000 1000000000000000 quad_b1 quad_b2 quad_weights 6
  (1 # 1000000000000000) = true.
Proof. vm_compute. reflexivity. Qed.
Lemma triangle_moment i j : (i + j <= 6)%nat ->
  Rabs (triangle12 (fun x y => x ^ i * y ^ j) - Q2R (moment2 i j)) <= Q2R (1 # 1000000000000000).
Proof.
  intros Hij. exact (triangle_ok_spec _ _ _ _ _ _ _ i j triangle12_ok Hij).
Qed.

Lemma ex_RInt_cont2 (f : R -> R) a b : (forall x, ex_derive f x) -> ex_RInt f a b.
Proof. intros H. apply (ex_RInt_continuous f). intros z _. apply (ex_derive_cont f). apply H. Qed.

Lemma ex_RInt_mono2 c i j x a b : ex_RInt (fun y => c * x ^ i * y ^ j) a b.
Proof. apply ex_RInt_cont2. intros y. auto_derive. exact I. Qed.
Lemma ex_RInt_poly2 ts x a b : ex_RInt (fun y => poly2 ts x y) a b.
Proof.
  induction ts as [|[[c i] j] ts IH].
  - apply ex_RInt_cont2. intros y. unfold poly2; simpl. auto_derive. exact I.
  - unfold poly2; simpl. apply (ex_RInt_plus (fun y => c * x ^ i * y ^ j) (fun y => poly2 ts x y)); [|exact IH].
    apply ex_RInt_mono2.
Qed.

Lemma is_RInt_poly2 ts :
  is_RInt (fun x => RInt (fun y => poly2 ts x y) 0 (1 - x)) 0 1
    (Rsum (map (fun t => let '(c, i, j) := t in c * Q2R (moment2 i j)) ts)).
Proof.
  induction ts as [|[[c i] j] ts IH].
  - apply is_RInt_ext with (f := fun _ => 0).
    + intros x _. unfold poly2; simpl. rewrite RInt_const. unfold scal; simpl; unfold mult; simpl. ring.
    + apply is_RInt_zero.
  - simpl.
    apply is_RInt_ext with (f := fun x => c * RInt (fun y => x ^ i * y ^ j) 0 (1 - x) +
                                          RInt (fun y => poly2 ts x y) 0 (1 - x)).
    + intros x _. change (fun y => poly2 ((c, i, j) :: ts) x y)
        with (fun y => c * x ^ i * y ^ j + poly2 ts x y).
      rewrite (RInt_plus_R (fun y => c * x ^ i * y ^ j) (fun y => poly2 ts x y)).
      * f_equal. rewrite <- (RInt_scal_R (fun y => x ^ i * y ^ j)).
        -- apply RInt_ext. intros y _. as_R. simpl. ring.
        -- apply ex_RInt_cont2. intros y. auto_derive. exact I.
      * apply ex_RInt_mono2.
      * apply ex_RInt_poly2.
    + apply (is_RInt_plus (fun x => c * RInt (fun y => x ^ i * y ^ j) 0 (1 - x))).
      * apply (is_RInt_scal (fun x => RInt (fun y => x ^ i * y ^ j) 0 (1 - x))). apply is_RInt_moment2.
      * exact IH.
Qed.

Lemma triangle12_poly2 ts : Forall (fun t => (snd (fst t) + snd t <= 6)%nat) ts ->
  Rabs (triangle12 (poly2 ts) - RInt (fun x => RInt (fun y => poly2 ts x y) 0 (1 - x)) 0 1)
    <= Q2R (1 # 1000000000000000) * abs_sum2 ts.
Proof.
  intros H. rewrite (is_RInt_unique _ _ _ _ (is_RInt_poly2 ts)).
  induction H as [|[[c i] j] ts Hij H IH].
  - unfold poly2, abs_sum2; simpl. rewrite (triangle12_ext _ (fun x y => 0 * 0)) by (intros; ring).
    rewrite triangle12_scal. rewrite Rmult_0_l, Rmult_0_r, Rminus_0_r, Rabs_R0. lra.
  - simpl in Hij.
    assert (E : triangle12 (poly2 ((c, i, j) :: ts)) =
                c * triangle12 (fun x y => x ^ i * y ^ j) + triangle12 (poly2 ts)).
    { rewrite <- triangle12_scal, <- triangle12_plus. apply triangle12_ext. intros x y.
      unfold poly2; simpl. ring. }
    rewrite E. unfold abs_sum2. cbn [map Rsum fst snd].
    match goal with |- Rabs (?a * ?b + ?c - (?d + ?e)) <= _ =>
      replace (a * b + c - (d + e)) with (a * (b - Q2R (moment2 i j)) + (c - e)) by ring end.
    eapply Rle_trans; [apply Rabs_triang|]. rewrite Rmult_plus_distr_l.
    apply Rplus_le_compat; [|exact IH].
    rewrite Rabs_mult, (Rmult_comm (Q2R _)). apply Rmult_le_compat_l; [apply Rabs_pos|].
    apply triangle_moment. assumption.
Qed.
