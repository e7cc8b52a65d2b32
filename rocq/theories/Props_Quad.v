(** Property theorems about the integration rules: C40, C41. *)
From Coq Require Import Reals Lra Lia QArith Qreals.
From Coquelicot Require Import Coquelicot.
From Verif Require Import Base BaseFacts Vec GeomModel GeomFacts Tables QuadModel OutwardFacts.
From Verif Require Import QuadFacts KronrodFacts.
Local Open Scope R_scope.

(** ** C40 Integration rules *)
Lemma Q2R_tol16 : Q2R (1 # 10000000000000000) = 1 / 10 ^ 16.
Proof. unfold Q2R; simpl. field. Qed.
Lemma Q2R_tol15 : Q2R (1 # 1000000000000000) = 1 / 10 ^ 15.
Proof. unfold Q2R; simpl. field. Qed.
Lemma Q2R_2tol15 : Q2R (2 # 1000000000000000) = 2 / 10 ^ 15.
Proof. unfold Q2R; simpl. field. Qed.

(** The 16-point rule integrates every polynomial of degree at most 31 over [-1, 1]. *)
Theorem C40_gauss cs : (length cs <= 32)%nat ->
  Rabs (gauss16 (poly cs) - RInt (poly cs) (-1) 1) <= 1 / 10 ^ 16 * abs_sum cs.
Proof.
  intros H. rewrite <- Q2R_tol16. exact (rule_poly _ _ _ _ _ gauss16_ok cs 0 H).
Qed.
Print Assumptions C40_gauss.

Lemma RInt_affine (p : R -> R) c h : 0 < h -> (forall x, ex_derive p x) ->
  RInt (fun x => p ((x - c) / h)) (c - h) (c + h) = h * RInt p (-1) 1.
Proof.
  intros Hh Hp.
  rewrite <- (RInt_scal_R p) by (apply ex_RInt_cont2; assumption).
  set (f := fun x => p ((x - c) / h)). symmetry. apply is_RInt_unique.
  assert (Hex : ex_RInt f (c - h) (c + h)).
  { apply ex_RInt_cont2. intros x. apply (ex_derive_comp p (fun x => (x - c) / h)); [apply Hp|].
    auto_derive. exact I. }
  pose proof (@RInt_correct R_CompleteNormedModule f _ _ Hex) as H.
  assert (H' : is_RInt f (h * -1 + c) (h * 1 + c) (RInt f (c - h) (c + h))).
  { replace (h * -1 + c) with (c - h) by ring. replace (h * 1 + c) with (c + h) by ring. exact H. }
  apply (is_RInt_comp_lin f h c (-1) 1) in H'. refine (is_RInt_ext _ _ _ _ _ _ H').
  intros x _. as_R. unfold scal; simpl; unfold mult; simpl. unfold f. do 2 f_equal. field. lra.
Qed.
Lemma ex_derive_poly n cs x : ex_derive (poly_from n cs) x.
Proof.
  revert n. induction cs as [|c cs IH]; intros n; simpl; [apply ex_derive_const|].
  apply @ex_derive_plus; [auto_derive; exact I|apply IH].
Qed.

(** The two rules of the adaptive integrator on the interval with centre [c] and half width [h],
    for polynomials in the local coordinate. *)
Theorem C40_kronrod cs c h : 0 < h ->
  let p := fun x => poly cs ((x - c) / h) in
  ((length cs <= 14)%nat -> Rabs (g7 p c h - RInt p (c - h) (c + h)) <= 2 / 10 ^ 15 * h * abs_sum cs) /\
  ((length cs <= 24)%nat -> Rabs (k15 p c h - RInt p (c - h) (c + h)) <= 1 / 10 ^ 15 * h * abs_sum cs).
Proof.
  intros Hh p.
  assert (G : forall ns ws D d tol, length ns = length ws -> ns <> [] -> Qnum (hd 0%Q ns) = 0%Z ->
     moments_ok D (sym_nodes ns) (sym_weights ws) d tol = true -> (length cs <= S d)%nat ->
     Rabs (symmetric_rule ns ws p c h - RInt p (c - h) (c + h)) <= Q2R tol * h * abs_sum cs).
  { intros ns ws D d tol Hl Hne H0 Hm Hd.
    rewrite symmetric_rule_eq by assumption. unfold p at 2.
    rewrite (RInt_affine (poly cs)) by (assumption || (intros; apply ex_derive_poly)).
    rewrite <- Rmult_minus_distr_l, Rabs_mult, (Rabs_pos_eq h) by lra.
    rewrite (Rmult_comm (Q2R tol)), Rmult_assoc. apply Rmult_le_compat_l; [lra|].
    replace (rule (sym_nodes ns) (sym_weights ws) (fun t => p (c + h * t)))
      with (rule (sym_nodes ns) (sym_weights ws) (poly cs)).
    - exact (rule_poly _ _ _ _ _ Hm cs 0 Hd).
    - unfold rule. f_equal. generalize (sym_nodes ns), (sym_weights ws).
      induction l as [|x l IH]; intros [|w l']; simpl; try reflexivity. rewrite IH. do 2 f_equal.
      unfold p. f_equal. field. lra. }
  split; intros Hl.
  - rewrite <- Q2R_2tol15. exact (G g7_nodes g7_weights _ _ _ eq_refl ltac:(discriminate) eq_refl g7_ok Hl).
  - rewrite <- Q2R_tol15. exact (G k15_nodes k15_weights _ _ _ eq_refl ltac:(discriminate) eq_refl k15_ok Hl).
Qed.
Print Assumptions C40_kronrod.

(** The 12-point rule integrates every polynomial of total degree at most 6 over the triangle
    x, y >= 0, x + y <= 1. *)
Theorem C40_triangle ts : Forall (fun t => (snd (fst t) + snd t <= 6)%nat) ts ->
  Rabs (triangle12 (poly2 ts) - RInt (fun x => RInt (fun y => poly2 ts x y) 0 (1 - x)) 0 1)
    <= 1 / 10 ^ 15 * abs_sum2 ts.
Proof. rewrite <- Q2R_tol15. exact (triangle12_poly2 ts). Qed.
Print Assumptions C40_triangle.

(** Weights are positive and points lie inside the element. *)
Theorem C40_points_and_weights :
  (length gauss_points = 16 /\ length gauss_weights = 16)%nat /\
  (forall x, In x gauss_points -> -1 < Q2R x < 1) /\ (forall w, In w gauss_weights -> 0 < Q2R w) /\
  (length g7_nodes = 4 /\ length g7_weights = 4 /\ length k15_nodes = 8 /\ length k15_weights = 8)%nat /\
  (forall x, In x (g7_nodes ++ k15_nodes) -> 0 <= Q2R x < 1) /\
  (forall w, In w (g7_weights ++ k15_weights) -> 0 < Q2R w) /\
  (length quad_weights = 12)%nat /\ (forall w, In w quad_weights -> 0 < Q2R w) /\
  (forall b1 b2, In (b1, b2) (combine quad_b1 quad_b2) ->
     0 < Q2R b1 /\ 0 < Q2R b2 /\ Q2R b1 + Q2R b2 < 1).
Proof.
  assert (L : forall (a b : Q) x, Qle_bool x b && negb (Qeq_bool x b) && Qle_bool a x && negb (Qeq_bool a x) = true ->
     Q2R a < Q2R x < Q2R b).
  { intros a b x H. rewrite !andb_true_iff, !negb_true_iff in H. destruct H as [[[H1 H2] H3] H4].
    apply Qle_bool_iff in H1, H3. apply Qeq_bool_neq in H2, H4.
    split; apply Qlt_Rlt; apply Qnot_le_lt; intros H; [apply H4|apply H2]; apply Qle_antisym; assumption. }
  assert (Q0 : Q2R 0 = 0) by (unfold Q2R; simpl; field).
  assert (Q1 : Q2R 1 = 1) by (unfold Q2R; simpl; field).
  assert (Qm : Q2R (-1) = -1) by (unfold Q2R; simpl; field).
  assert (F : forall (a b : Q) l,
    forallb (fun x => Qle_bool x b && negb (Qeq_bool x b) && Qle_bool a x && negb (Qeq_bool a x)) l = true ->
    forall x, In x l -> Q2R a < Q2R x < Q2R b).
  { intros a b l H x Hx. rewrite forallb_forall in H. apply L, H, Hx. }
  split; [split; reflexivity|].
  split. { rewrite <- Q1, <- Qm. apply F. vm_compute. reflexivity. }
  split. { intros w Hw. rewrite <- Q0. apply (F 0%Q 1%Q gauss_weights); [vm_compute; reflexivity|assumption]. }
  split; [repeat split|].
  split. { intros x Hx. apply in_app_iff in Hx.
    assert (x = hd 0%Q g7_nodes \/ x = hd 0%Q k15_nodes \/ In x (tl g7_nodes ++ tl k15_nodes)) as [->|[->|H]].
    { destruct Hx as [Hx|Hx]; simpl in Hx |- *; intuition. }
    - unfold Q2R; simpl. lra.
    - unfold Q2R; simpl. lra.
    - apply (F 0%Q 1%Q) in H; [|vm_compute; reflexivity]. rewrite Q0, Q1 in H. lra. }
  split. { intros w Hw. rewrite <- Q0. apply (F 0%Q 1%Q (g7_weights ++ k15_weights)%list); [vm_compute; reflexivity|exact Hw]. }
  split; [reflexivity|].
  split. { intros w Hw. rewrite <- Q0. apply (F 0%Q 1%Q quad_weights); [vm_compute; reflexivity|assumption]. }
  intros b1 b2 H. rewrite <- Q2R_plus. rewrite <- Q0, <- Q1.
  assert (C : forallb (fun bb => let '(x, y) := bb in
     Qle_bool x 1 && negb (Qeq_bool x 1) && Qle_bool 0 x && negb (Qeq_bool 0 x) &&
     (Qle_bool y 1 && negb (Qeq_bool y 1) && Qle_bool 0 y && negb (Qeq_bool 0 y)) &&
     (Qle_bool (x + y) 1 && negb (Qeq_bool (x + y) 1) && Qle_bool 0 (x + y) && negb (Qeq_bool 0 (x + y))))
     (combine quad_b1 quad_b2) = true) by (vm_compute; reflexivity).
  rewrite forallb_forall in C. apply C in H. apply andb_true_iff in H. destruct H as [H H3].
  apply andb_true_iff in H. destruct H as [H1 H2]. apply L in H1, H2, H3. lra.
Qed.
Print Assumptions C40_points_and_weights.

Example C40_nonvacuous :
  poly [1; 0; 3] 2 = 13 /\ abs_sum [1; 0; 3] = 4 /\
  poly2 [(2, 1%nat, 1%nat); (1, 0%nat, 6%nat)] 1 2 = 68 /\
  Rabs (gauss16 (fun x => 3 * x ^ 2 + 1) - 4) <= 4 / 10 ^ 16.
Proof.
  split; [unfold poly; simpl; ring|]. split.
  { unfold abs_sum; simpl. rewrite !Rabs_pos_eq by lra. ring. }
  split; [unfold poly2; simpl; ring|].
  assert (E : forall x, poly [1; 0; 3] x = 3 * x ^ 2 + 1) by (intros; unfold poly; simpl; ring).
  pose proof (C40_gauss [1; 0; 3] ltac:(simpl; lia)) as H.
  assert (E2 : abs_sum [1; 0; 3] = 4) by (unfold abs_sum; simpl; rewrite !Rabs_pos_eq by lra; ring).
  assert (E3 : RInt (poly [1; 0; 3]) (-1) 1 = 4).
  { apply is_RInt_unique. refine (is_RInt_eq _ _ _ _ _ _ (is_RInt_poly 0 [1; 0; 3] (-1) 1)). simpl. field. }
  assert (E4 : gauss16 (poly [1; 0; 3]) = gauss16 (fun x => 3 * x ^ 2 + 1)).
  { unfold gauss16, rule. f_equal. generalize gauss_points, gauss_weights.
    induction l as [|x l IH]; intros [|w l']; simpl; try reflexivity. rewrite IH, E. simpl. reflexivity. }
  rewrite E2, E3, E4 in H. lra.
Qed.

(** ** C41 Adaptive integration *)
(** Whatever the integrand and the tolerances: a returned value is the sum of the 15-point rule
    over a partition of the interval on whose parts the two rules agree within the tolerance. *)
Theorem C41_adaptive_sum f a b abs_tol rel_tol fuel r :
  kronrod_adaptive fuel f a b abs_tol rel_tol = Some r -> integrates f abs_tol rel_tol a b r.
Proof.
  intros H. apply kronrod_loop_integrates in H; [|intros; lra].
  destruct H as (s & Hs & ->). rewrite Rplus_0_l. exact Hs.
Qed.
Print Assumptions C41_adaptive_sum.

(** It terminates for every bounded integrand and positive absolute tolerance. *)
Theorem C41_terminates f a b abs_tol rel_tol M :
  0 < abs_tol -> (forall x, a <= x <= b -> Rabs (f x) <= M) ->
  exists fuel r, kronrod_adaptive fuel f a b abs_tol rel_tol = Some r /\
    forall more, kronrod_adaptive (fuel + more) f a b abs_tol rel_tol = Some r.
Proof.
  intros Ht Hf. destruct (kronrod_terminates f a b abs_tol rel_tol M Ht Hf) as (fuel & r & E).
  exists fuel, r. split; [exact E|]. intros more. apply kronrod_more_fuel. exact E.
Qed.
Print Assumptions C41_terminates.

(** An empty interval gives 0. *)
Theorem C41_empty f a b abs_tol rel_tol fuel : b <= a ->
  kronrod_adaptive (S fuel) f a b abs_tol rel_tol = Some 0.
Proof.
  intros H. unfold kronrod_adaptive; simpl. rewrite (proj2 (Rltb_false a b)) by assumption. reflexivity.
Qed.
Print Assumptions C41_empty.

(** Constants are integrated exactly up to the precision of the table, on every interval. *)
Theorem C41_constant k a b abs_tol rel_tol r : a <= b ->
  integrates (fun _ => k) abs_tol rel_tol a b r -> Rabs (r - k * (b - a)) <= 1 / 10 ^ 15 * Rabs k * (b - a).
Proof.
  intros Hab H. induction H as [a b H|a c b r Hc _ H IH].
  - replace a with b by lra. replace (0 - k * (b - b)) with 0 by ring. rewrite Rabs_R0. lra.
  - specialize (IH ltac:(lra)).
    destruct (C40_kronrod [k] ((a + c) / 2) ((c - a) / 2) ltac:(lra)) as [_ HK].
    specialize (HK ltac:(simpl; lia)).
    assert (E : abs_sum [k] = Rabs k) by (unfold abs_sum; simpl; ring). rewrite E in HK.
    set (K := k15 (fun _ => k) ((a + c) / 2) ((c - a) / 2)).
    assert (EK : k15 (fun x => poly [k] ((x - (a + c) / 2) / ((c - a) / 2))) ((a + c) / 2) ((c - a) / 2) = K).
    { unfold K, k15, symmetric_rule, poly; simpl. ring. }
    rewrite EK in HK.
    assert (EI : RInt (fun x => poly [k] ((x - (a + c) / 2) / ((c - a) / 2))) ((a + c) / 2 - (c - a) / 2)
                   ((a + c) / 2 + (c - a) / 2) = k * (c - a)).
    { rewrite (RInt_ext _ (fun _ => k)) by (intros x _; as_R; unfold poly; simpl; ring).
      rewrite RInt_const. as_R. unfold scal; simpl; unfold mult; simpl. field. }
    rewrite EI in HK.
    replace (K + r - k * (b - a)) with ((K - k * (c - a)) + (r - k * (b - c))) by ring.
    eapply Rle_trans; [apply Rabs_triang|].
    assert (0 <= Rabs k * (c - a)) by (apply Rmult_le_pos; [apply Rabs_pos|lra]). lra.
Qed.
Print Assumptions C41_constant.

Example C41_nonvacuous :
  (exists fuel r, kronrod_adaptive fuel (fun x => x * x) 0 2 (1/100) 0 = Some r /\
     integrates (fun x => x * x) (1/100) 0 0 2 r) /\
  (exists fuel r, kronrod_adaptive fuel (fun _ => 5) 0 2 (1/100) 0 = Some r /\ Rabs (r - 10) <= 1 / 10 ^ 14).
Proof.
  split.
  - destruct (C41_terminates (fun x => x * x) 0 2 (1/100) 0 4 ltac:(lra)) as (fuel & r & E & _).
    { intros x Hx. rewrite Rabs_pos_eq; nra. }
    exists fuel, r. split; [exact E|]. exact (C41_adaptive_sum _ _ _ _ _ _ _ E).
  - destruct (C41_terminates (fun _ => 5) 0 2 (1/100) 0 5 ltac:(lra)) as (fuel & r & E & _).
    { intros x Hx. rewrite Rabs_pos_eq; lra. }
    exists fuel, r. split; [exact E|]. apply C41_adaptive_sum in E.
    apply C41_constant in E; [|lra]. rewrite (Rabs_pos_eq 5) in E by lra.
    replace (5 * (2 - 0)) with 10 in E by ring. lra.
Qed.
