(** Facts about the adaptive integrator (backend/kronrod.c:43-77). *)
From Coq Require Import Reals Lra Lia QArith Qreals.
From Verif Require Import Base BaseFacts Vec GeomModel GeomFacts Tables QuadModel OutwardFacts.
From Verif Require Import QuadFacts.
Local Open Scope R_scope.

Lemma Rltb_true a b : Rltb a b = true <-> a < b.
Proof. unfold Rltb. destruct (Rlt_dec a b); split; intros; congruence || tauto. Qed.
Lemma Rltb_false a b : Rltb a b = false <-> b <= a.
Proof. unfold Rltb. destruct (Rlt_dec a b); split; intros; try congruence; try lra. Qed.
Lemma Rleb_true a b : Rleb a b = true <-> a <= b.
Proof. unfold Rleb. destruct (Rle_dec a b); split; intros; congruence || tauto. Qed.
Lemma Rleb_false a b : Rleb a b = false <-> b < a.
Proof. unfold Rleb. destruct (Rle_dec a b); split; intros; try congruence; try lra. Qed.

(** [integrates f abs_tol rel_tol a b r]: [r] is the sum of the 15-point rule over a partition of
    [a, b] into intervals on each of which the two rules agree within the tolerance. *)
Inductive integrates (f : R -> R) (abs_tol rel_tol : R) : R -> R -> R -> Prop :=
| integrates_empty a b : b <= a -> integrates f abs_tol rel_tol a b 0
| integrates_step a c b r :
    a < c <= b ->
    Rabs (k15 f ((a + c) / 2) ((c - a) / 2) - g7 f ((a + c) / 2) ((c - a) / 2)) <= abs_tol \/
    Rabs (k15 f ((a + c) / 2) ((c - a) / 2) - g7 f ((a + c) / 2) ((c - a) / 2))
      <= rel_tol * Rabs (k15 f ((a + c) / 2) ((c - a) / 2)) ->
    integrates f abs_tol rel_tol c b r ->
    integrates f abs_tol rel_tol a b (k15 f ((a + c) / 2) ((c - a) / 2) + r).

Lemma kronrod_loop_integrates fuel f b abs_tol rel_tol : forall result start end_ r,
  (start < b -> start < end_ <= b) ->
  kronrod_loop fuel f b abs_tol rel_tol result start end_ = Some r ->
  exists s, integrates f abs_tol rel_tol start b s /\ r = result + s.
Proof.
  induction fuel as [|fuel IH]; intros result start end_ r Hinv H; [discriminate|]. simpl in H.
  destruct (Rltb start b) eqn:E.
  - apply Rltb_true in E. specialize (Hinv E).
    destruct (accept f abs_tol rel_tol ((start + end_) / 2) ((end_ - start) / 2)) eqn:A.
    + apply IH in H; [|intros; lra]. destruct H as (s & Hs & ->).
      exists (k15 f ((start + end_) / 2) ((end_ - start) / 2) + s). split; [|ring].
      apply integrates_step; [lra| |assumption]. unfold accept in A. apply orb_true_iff in A.
      rewrite !Rleb_true in A. exact A.
    + apply IH in H; [|intros; lra]. exact H.
  - apply Rltb_false in E. injection H as <-. exists 0. split; [constructor; assumption|ring].
Qed.

Lemma kronrod_more_fuel fuel f b abs_tol rel_tol : forall result start end_ r n,
  kronrod_loop fuel f b abs_tol rel_tol result start end_ = Some r ->
  kronrod_loop (fuel + n) f b abs_tol rel_tol result start end_ = Some r.
Proof.
  induction fuel as [|fuel IH]; intros result start end_ r n H; [discriminate|]. simpl in *.
  destruct (Rltb start b); [|assumption]. destruct (accept _ _ _ _ _); apply IH; assumption.
Qed.

(** Bounds on the rules *)
Lemma rule_bound ns ws (f : R -> R) M : 0 <= M -> (forall x, In x ns -> Rabs (f (Q2R x)) <= M) ->
  Rabs (rule ns ws f) <= M * Rsum (map (fun w => Rabs (Q2R w)) ws).
Proof.
  intros HM. unfold rule. revert ws. induction ns as [|x ns IH]; intros ws H.
  - simpl. rewrite Rabs_R0. apply Rmult_le_pos; [assumption|]. clear. induction ws; simpl; [lra|].
    pose proof (Rabs_pos (Q2R a)). lra.
  - destruct ws as [|w ws]; simpl; [rewrite Rabs_R0; lra|].
    eapply Rle_trans; [apply Rabs_triang|]. rewrite Rmult_plus_distr_l. apply Rplus_le_compat.
    + rewrite Rabs_mult, Rmult_comm. apply Rmult_le_compat_r; [apply Rabs_pos|]. apply H. left; reflexivity.
    + apply IH. intros y Hy. apply H. right; assumption.
Qed.

Lemma Rsum_Q ws : Rsum (map (fun w => Rabs (Q2R w)) ws) = Q2R (Qsum (map Qabs.Qabs ws)).
Proof.
  induction ws as [|w ws IH]; simpl; [unfold Q2R; simpl; field|]. rewrite Q2R_plus, Q2R_abs, IH. reflexivity.
Qed.

Definition unit_nodes (ns : list Q) : bool := forallb (fun q => Qle_bool (-1) q && Qle_bool q 1) ns.
Lemma unit_nodes_R ns x : unit_nodes ns = true -> In x ns -> -1 <= Q2R x <= 1.
Proof.
  unfold unit_nodes. rewrite forallb_forall. intros H Hx. apply H in Hx. apply andb_true_iff in Hx.
  destruct Hx as [H1 H2]. apply Qle_bool_iff, Qle_Rle in H1. apply Qle_bool_iff, Qle_Rle in H2.
  replace (Q2R (-1)) with (-1) in H1 by (unfold Q2R; simpl; field).
  replace (Q2R 1) with 1 in H2 by (unfold Q2R; simpl; field). lra.
Qed.

Lemma symmetric_bound ns ws f c h M :
  length ns = length ws -> ns <> [] -> Qnum (hd 0%Q ns) = 0%Z -> unit_nodes (sym_nodes ns) = true ->
  Qle_bool (Qsum (map Qabs.Qabs (sym_weights ws))) 3 = true ->
  0 <= h -> (forall x, c - h <= x <= c + h -> Rabs (f x) <= M) ->
  Rabs (symmetric_rule ns ws f c h) <= 3 * h * M.
Proof.
  intros Hl Hne H0 Hu Hs Hh Hf. rewrite symmetric_rule_eq by assumption.
  assert (HM : 0 <= M). { eapply Rle_trans; [apply Rabs_pos|]. apply (Hf c). lra. }
  rewrite Rabs_mult, (Rabs_pos_eq h) by assumption. rewrite (Rmult_comm 3 h), Rmult_assoc.
  apply Rmult_le_compat_l; [assumption|]. eapply Rle_trans; [apply rule_bound with (M := M); [assumption|]|].
  - intros x Hx. pose proof (unit_nodes_R _ _ Hu Hx). apply Hf.
    split; [assert (0 <= h * (1 + Q2R x)) by (apply Rmult_le_pos; lra); lra|].
    assert (0 <= h * (1 - Q2R x)) by (apply Rmult_le_pos; lra); lra.
  - rewrite Rsum_Q. apply Qle_bool_iff, Qle_Rle in Hs. replace (Q2R 3) with 3 in Hs by (unfold Q2R; simpl; field).
    rewrite Rmult_comm. apply Rmult_le_compat_r; assumption.
Qed.

Lemma k15_bound f c h M : 0 <= h -> (forall x, c - h <= x <= c + h -> Rabs (f x) <= M) ->
  Rabs (k15 f c h) <= 3 * h * M.
Proof.
  apply symmetric_bound; [reflexivity|discriminate|reflexivity|vm_compute; reflexivity|vm_compute; reflexivity].
Qed.
Lemma g7_bound f c h M : 0 <= h -> (forall x, c - h <= x <= c + h -> Rabs (f x) <= M) ->
  Rabs (g7 f c h) <= 3 * h * M.
Proof.
  apply symmetric_bound; [reflexivity|discriminate|reflexivity|vm_compute; reflexivity|vm_compute; reflexivity].
Qed.

Lemma accept_small f abs_tol rel_tol c h M : 0 <= h ->
  (forall x, c - h <= x <= c + h -> Rabs (f x) <= M) -> 6 * h * M <= abs_tol ->
  accept f abs_tol rel_tol c h = true.
Proof.
  intros Hh Hf Ht. unfold accept. apply orb_true_iff. left. apply Rleb_true.
  pose proof (k15_bound f c h M Hh Hf). pose proof (g7_bound f c h M Hh Hf).
  unfold Rminus. eapply Rle_trans; [apply Rabs_triang|]. rewrite Rabs_Ropp. lra.
Qed.

Lemma pow2_archimed x d : 0 < d -> exists k, x <= 2 * d * 2 ^ k.
Proof.
  intros Hd. destruct (Rle_dec x (2 * d)) as [L|L]; [exists 0%nat; simpl; lra|].
  destruct (Pow_x_infinity 2 ltac:(rewrite Rabs_pos_eq; lra) (x / (2 * d))) as [N HN].
  exists N. specialize (HN N ltac:(lia)). rewrite Rabs_pos_eq in HN by (apply pow_le; lra).
  apply Rge_le in HN. apply Rmult_le_compat_l with (r := 2 * d) in HN; [|lra].
  replace (2 * d * (x / (2 * d))) with x in HN by (field; lra). exact HN.
Qed.

Lemma kronrod_terminates_from f a b abs_tol rel_tol M d :
  0 < d -> (forall x, a <= x <= b -> Rabs (f x) <= M) -> 6 * d * M <= abs_tol ->
  forall n start, a <= start -> b - start <= INR n * d ->
  forall k end_ result, start < end_ <= b -> (end_ = b \/ d < end_ - start) -> end_ - start <= 2 * d * 2 ^ k ->
  exists fuel r, kronrod_loop fuel f b abs_tol rel_tol result start end_ = Some r.
Proof.
  intros Hd Hf Ht. induction n as [|n IHn]; intros start Ha Hn.
  - intros k end_ result He _ _. simpl in Hn. lra.
  - induction k as [|k IHk]; intros end_ result He Hd' Hk.
    + (* accepted *)
      assert (HM : 0 <= M) by (eapply Rle_trans; [apply Rabs_pos|apply (Hf start); lra]).
      assert (A : accept f abs_tol rel_tol ((start + end_) / 2) ((end_ - start) / 2) = true).
      { apply accept_small with (M := M); [lra| |].
        - intros x Hx. apply Hf. lra.
        - simpl in Hk. eapply Rle_trans; [|exact Ht]. apply Rmult_le_compat_r; lra. }
      destruct Hd' as [->|Hd'].
      * exists 2%nat, (result + k15 f ((start + b) / 2) ((b - start) / 2)). simpl.
        rewrite (proj2 (Rltb_true start b)) by lra. rewrite A.
        rewrite (proj2 (Rltb_false b b)) by lra. reflexivity.
      * destruct (Rlt_le_dec end_ b) as [L|L].
        -- destruct (pow2_archimed (b - end_) d Hd) as [k' Hk'].
           destruct (IHn end_ ltac:(lra) ltac:(rewrite S_INR in Hn; lra) k' b
                       (result + k15 f ((start + end_) / 2) ((end_ - start) / 2)) ltac:(lra) (or_introl eq_refl) Hk')
             as (fuel & r & E).
           exists (S fuel), r. simpl. rewrite (proj2 (Rltb_true start b)) by lra. rewrite A. exact E.
        -- assert (end_ = b) as -> by lra.
           exists 2%nat, (result + k15 f ((start + b) / 2) ((b - start) / 2)). simpl.
           rewrite (proj2 (Rltb_true start b)) by lra. rewrite A.
           rewrite (proj2 (Rltb_false b b)) by lra. reflexivity.
    + destruct (accept f abs_tol rel_tol ((start + end_) / 2) ((end_ - start) / 2)) eqn:A.
      * destruct (Rlt_le_dec end_ b) as [L|L].
        -- destruct Hd' as [->|Hd']; [lra|].
           destruct (pow2_archimed (b - end_) d Hd) as [k' Hk'].
           destruct (IHn end_ ltac:(lra) ltac:(rewrite S_INR in Hn; lra) k' b
                       (result + k15 f ((start + end_) / 2) ((end_ - start) / 2)) ltac:(lra) (or_introl eq_refl) Hk')
             as (fuel & r & E).
           exists (S fuel), r. simpl. rewrite (proj2 (Rltb_true start b)) by lra. rewrite A. exact E.
        -- assert (end_ = b) as -> by lra.
           exists 2%nat, (result + k15 f ((start + b) / 2) ((b - start) / 2)). simpl.
           rewrite (proj2 (Rltb_true start b)) by lra. rewrite A.
           rewrite (proj2 (Rltb_false b b)) by lra. reflexivity.
      * (* rejected: the interval was longer than 2 d *)
        assert (HM : 0 <= M) by (eapply Rle_trans; [apply Rabs_pos|apply (Hf start); lra]).
        assert (L : 2 * d < end_ - start).
        { apply Rnot_le_lt. intros L. rewrite (accept_small f abs_tol rel_tol _ _ M) in A; [discriminate|lra| |].
          - intros x Hx. apply Hf. lra.
          - eapply Rle_trans; [|exact Ht]. apply Rmult_le_compat_r; lra. }
        destruct (IHk ((start + end_) / 2) result ltac:(lra) ltac:(right; lra)) as (fuel & r & E).
        { simpl in Hk. lra. }
        exists (S fuel), r. simpl. rewrite (proj2 (Rltb_true start b)) by lra. rewrite A. exact E.
Qed.

Lemma nat_archimed d x : 0 < d -> exists n, x < INR n * d.
Proof.
  intros Hd. exists (Z.to_nat (up (x / d))). pose proof (archimed (x / d)) as [H _].
  assert (x / d < INR (Z.to_nat (up (x / d)))).
  { eapply Rlt_le_trans; [apply Rgt_lt; exact H|]. rewrite INR_IZR_INZ. apply IZR_le. lia. }
  apply Rmult_lt_reg_r with (/ d); [apply Rinv_0_lt_compat; assumption|].
  replace (INR (Z.to_nat (up (x / d))) * d * / d) with (INR (Z.to_nat (up (x / d)))) by (field; lra). exact H0.
Qed.

Lemma kronrod_terminates f a b abs_tol rel_tol M :
  0 < abs_tol -> (forall x, a <= x <= b -> Rabs (f x) <= M) ->
  exists fuel r, kronrod_adaptive fuel f a b abs_tol rel_tol = Some r.
Proof.
  intros Ht Hf. unfold kronrod_adaptive. destruct (Rlt_le_dec a b) as [L|L].
  - assert (HM : 0 <= M) by (eapply Rle_trans; [apply Rabs_pos|apply (Hf a); lra]).
    set (d := abs_tol / (6 * (M + 1))).
    assert (Hd : 0 < d) by (unfold d; apply Rdiv_lt_0_compat; lra).
    assert (Hdm : 6 * d * M <= abs_tol).
    { assert (E : 6 * d * (M + 1) = abs_tol) by (unfold d; field; lra).
      rewrite <- E. apply Rmult_le_compat_l; lra. }
    destruct (pow2_archimed (b - a) d Hd) as [k Hk].
    destruct (nat_archimed d (b - a) Hd) as [n Hn].
    apply (kronrod_terminates_from f a b abs_tol rel_tol M d Hd Hf Hdm n a ltac:(lra)) with (k := k);
      [lra|lra|auto|assumption].
  - exists 1%nat, 0. simpl. rewrite (proj2 (Rltb_false a b)) by assumption. reflexivity.
Qed.
