(** Facts about the primitives of Base.v. *)
From Coq Require Import Permutation Sorted.
From Verif Require Import Base.

Lemma Forall2_length {A B} (R : A -> B -> Prop) l m : Forall2 R l m -> length l = length m.
Proof. induction 1; simpl; congruence. Qed.

Lemma bind_ok {A B} (r : result A) (f : A -> result B) b :
  bind r f = Ok b -> exists a, r = Ok a /\ f a = Ok b.
Proof. destruct r as [a|e]; simpl; intros H; [eauto|discriminate]. Qed.

Ltac inv_bind H :=
  let a := fresh "a" in let H1 := fresh "Hb" in
  apply bind_ok in H; destruct H as (a & H1 & H).

Lemma py_assert_ok b u : py_assert b = Ok u -> b = true.
Proof. unfold py_assert; destruct b; [reflexivity|discriminate]. Qed.

Lemma mapM_ok {A B} (f : A -> result B) l bs :
  mapM f l = Ok bs <-> Forall2 (fun a b => f a = Ok b) l bs.
Proof.
  revert bs; induction l as [|a l IH]; intros bs; simpl; split; intros H.
  - injection H as <-; constructor.
  - inversion H; reflexivity.
  - inv_bind H. inv_bind H. injection H as <-. constructor; [assumption|]. apply IH; assumption.
  - inversion H as [|a' b' l' bs' Ha Hl]; subst. rewrite Ha; simpl.
    apply IH in Hl; rewrite Hl; reflexivity.
Qed.

Lemma mapM_total {A B} (f : A -> result B) l :
  (forall a, In a l -> exists b, f a = Ok b) -> exists bs, mapM f l = Ok bs.
Proof.
  induction l as [|a l IH]; intros H; simpl; [eauto|].
  destruct (H a (or_introl eq_refl)) as [b Hb]; rewrite Hb; simpl.
  destruct IH as [bs Hbs]; [intros; apply H; right; assumption|].
  rewrite Hbs; simpl; eauto.
Qed.

Lemma mapM_length {A B} (f : A -> result B) l bs : mapM f l = Ok bs -> length bs = length l.
Proof. intros H; apply mapM_ok in H; symmetry; eapply Forall2_length; eauto. Qed.

Lemma mapM_pure {A B} (f : A -> result B) (g : A -> B) l :
  (forall a, In a l -> f a = Ok (g a)) -> mapM f l = Ok (map g l).
Proof.
  induction l as [|a l IH]; intros H; simpl; [reflexivity|].
  rewrite H by (left; reflexivity); simpl.
  rewrite IH by (intros; apply H; right; assumption). reflexivity.
Qed.

Lemma Forall2_nth_error {A B} (R : A -> B -> Prop) l m :
  Forall2 R l m <->
  length l = length m /\
  (forall i a b, nth_error l i = Some a -> nth_error m i = Some b -> R a b).
Proof.
  split.
  - intros H; split; [eapply Forall2_length; eauto|].
    induction H as [|a b l m Hab Hlm IH]; intros [|i] x y; simpl; intros Hx Hy;
      try discriminate.
    + injection Hx as <-; injection Hy as <-; assumption.
    + eapply IH; eauto.
  - revert m; induction l as [|a l IH]; intros [|b m] [Hlen H]; simpl in *; try lia;
      constructor.
    + apply (H 0); reflexivity.
    + apply IH; split; [lia|]. intros i x y; apply (H (S i)).
Qed.

Lemma Forall2_nth_l {A B} (R : A -> B -> Prop) l m i a :
  Forall2 R l m -> nth_error l i = Some a -> exists b, nth_error m i = Some b /\ R a b.
Proof.
  intros H; revert i a; induction H as [|x y l m Hxy H IH]; intros [|i] a Ha;
    simpl in *; try discriminate; [injection Ha as <-; eauto|auto].
Qed.

Lemma Forall2_nth_r {A B} (R : A -> B -> Prop) l m i b :
  Forall2 R l m -> nth_error m i = Some b -> exists a, nth_error l i = Some a /\ R a b.
Proof.
  intros H; revert i b; induction H as [|x y l m Hxy H IH]; intros [|i] b Hb;
    simpl in *; try discriminate; [injection Hb as <-; eauto|auto].
Qed.

Lemma Forall2_refl_all {A} (R : A -> A -> Prop) l : (forall a, R a a) -> Forall2 R l l.
Proof. intros HR; induction l; constructor; auto. Qed.

Lemma Forall2_trans_all {A B C} (R : A -> B -> Prop) (S : B -> C -> Prop) (T : A -> C -> Prop) l m n :
  (forall a b c, R a b -> S b c -> T a c) -> Forall2 R l m -> Forall2 S m n -> Forall2 T l n.
Proof.
  intros HT H; revert n; induction H as [|x y l m Hxy H IH]; intros n Hn;
    inversion Hn; subst; constructor; eauto.
Qed.

Lemma Forall2_impl_all {A B} (R S : A -> B -> Prop) l m :
  (forall a b, R a b -> S a b) -> Forall2 R l m -> Forall2 S l m.
Proof. intros HS H; induction H; constructor; auto. Qed.

Lemma Forall2_map_l {A B C} (f : A -> B) (R : B -> C -> Prop) l m :
  Forall2 R (map f l) m <-> Forall2 (fun a c => R (f a) c) l m.
Proof.
  revert m; induction l as [|a l IH]; intros m; simpl; split; intros H; inversion H; subst;
    constructor; auto; apply IH; auto.
Qed.

Lemma Forall2_map_r {A B C} (f : B -> C) (R : A -> C -> Prop) l m :
  Forall2 R l (map f m) <-> Forall2 (fun a b => R a (f b)) l m.
Proof.
  revert m; induction l as [|a l IH]; intros [|b m]; simpl; split; intros H; inversion H; subst;
    constructor; auto; apply IH; auto.
Qed.

Lemma Forall2_eq {A} (l m : list A) : Forall2 eq l m <-> l = m.
Proof.
  split; intros H; [|subst; apply Forall2_refl_all; reflexivity].
  induction H; congruence.
Qed.

(** np_get / np_take *)
Lemma np_get_ok {A} (l : list A) i a : np_get l i = Ok a <-> nth_error l i = Some a.
Proof. unfold np_get; destruct (nth_error l i); split; congruence. Qed.

Lemma np_get_total {A} (l : list A) i : i < length l -> exists a, np_get l i = Ok a.
Proof.
  intros H. unfold np_get. destruct (nth_error l i) eqn:E; eauto.
  apply nth_error_None in E; lia.
Qed.

Lemma nth_error_total {A} (l : list A) i : i < length l -> exists a, nth_error l i = Some a.
Proof. intros H. destruct (nth_error l i) eqn:E; eauto. apply nth_error_None in E; lia. Qed.

Lemma nth_error_lt {A} (l : list A) i a : nth_error l i = Some a -> i < length l.
Proof. intros H; apply nth_error_Some; congruence. Qed.

Lemma np_take_ok {A} (l : list A) idx r :
  np_take l idx = Ok r <-> Forall2 (fun i a => nth_error l i = Some a) idx r.
Proof.
  unfold np_take; rewrite mapM_ok.
  split; apply Forall2_impl_all; intros; apply np_get_ok; assumption.
Qed.

Lemma np_take_total {A} (l : list A) idx :
  (forall i, In i idx -> i < length l) -> exists r, np_take l idx = Ok r.
Proof. intros H; apply mapM_total; intros; apply np_get_total; auto. Qed.

Lemma np_take_length {A} (l : list A) idx r : np_take l idx = Ok r -> length r = length idx.
Proof. apply mapM_length. Qed.

Lemma np_take_nth {A} (l : list A) idx r k i :
  np_take l idx = Ok r -> nth_error idx k = Some i -> nth_error r k = nth_error l i.
Proof.
  intros H Hk. apply np_take_ok in H.
  destruct (Forall2_nth_l _ _ _ _ _ H Hk) as (a & Ha & Hl). congruence.
Qed.

(** upd / np_set *)
Lemma upd_length {A} (l : list A) i x : length (upd l i x) = length l.
Proof. revert i; induction l as [|a l IH]; intros [|i]; simpl; auto. Qed.

Lemma nth_error_upd {A} (l : list A) i x j :
  nth_error (upd l i x) j =
  if (j =? i) && (i <? length l) then Some x else nth_error l j.
Proof.
  revert i j; induction l as [|a l IH]; intros [|i] [|j]; simpl; try reflexivity.
  - rewrite andb_false_r; reflexivity.
  - rewrite IH. reflexivity.
Qed.

Lemma nth_error_upd_eq {A} (l : list A) i x : i < length l -> nth_error (upd l i x) i = Some x.
Proof.
  intros H; rewrite nth_error_upd, Nat.eqb_refl. apply Nat.ltb_lt in H; rewrite H; reflexivity.
Qed.

Lemma nth_error_upd_ne {A} (l : list A) i x j : j <> i -> nth_error (upd l i x) j = nth_error l j.
Proof. intros H; rewrite nth_error_upd. apply Nat.eqb_neq in H; rewrite H; reflexivity. Qed.

Lemma np_set_ok {A} (l : list A) i x l' :
  np_set l i x = Ok l' <-> i < length l /\ l' = upd l i x.
Proof.
  unfold np_set. destruct (Nat.ltb_spec i (length l)); split; intros H0;
    try (injection H0 as <-); try discriminate; intuition (subst; try lia; auto).
Qed.

Lemma np_set_total {A} (l : list A) i x : i < length l -> np_set l i x = Ok (upd l i x).
Proof. intros H; apply np_set_ok; auto. Qed.

(** np_put *)
Lemma np_put_length {A} idx : forall (l : list A) vals l',
  np_put l idx vals = Ok l' -> length l' = length l /\ length vals = length idx.
Proof.
  induction idx as [|i idx IH]; intros l [|v vals] l' H; simpl in *; try discriminate.
  - injection H as <-; auto.
  - inv_bind H. apply np_set_ok in Hb; destruct Hb as [Hi ->].
    apply IH in H. rewrite upd_length in H. simpl; lia.
Qed.

Lemma np_put_total {A} idx : forall (l : list A) vals,
  length vals = length idx -> (forall i, In i idx -> i < length l) ->
  exists l', np_put l idx vals = Ok l'.
Proof.
  induction idx as [|i idx IH]; intros l [|v vals] Hlen Hi; simpl in *; try lia; eauto.
  rewrite np_set_total by auto; simpl.
  apply IH; [lia|]. intros j Hj; rewrite upd_length; auto.
Qed.

Lemma np_put_other {A} idx : forall (l : list A) vals l' j,
  np_put l idx vals = Ok l' -> ~ In j idx -> nth_error l' j = nth_error l j.
Proof.
  induction idx as [|i idx IH]; intros l [|v vals] l' j H Hj; simpl in *; try discriminate.
  - congruence.
  - inv_bind H. apply np_set_ok in Hb; destruct Hb as [Hi ->].
    rewrite (IH _ _ _ _ H) by tauto. apply nth_error_upd_ne; intuition congruence.
Qed.

Lemma np_put_NoDup {A} idx : forall (l : list A) vals l' k i,
  np_put l idx vals = Ok l' -> NoDup idx -> nth_error idx k = Some i ->
  nth_error l' i = nth_error vals k.
Proof.
  induction idx as [|j idx IH]; intros l [|v vals] l' k i H Hnd Hk; simpl in *;
    try discriminate; try (destruct k; discriminate).
  inv_bind H. apply np_set_ok in Hb; destruct Hb as [Hi ->].
  apply NoDup_cons_iff in Hnd; destruct Hnd as [Hj Hnd].
  destruct k as [|k]; simpl in *.
  - injection Hk as ->. rewrite (np_put_other _ _ _ _ _ H Hj).
    apply nth_error_upd_eq; assumption.
  - eapply IH; eauto.
Qed.

(** Writing values that are each related to the value taken keeps the relation. *)
Lemma np_put_rel {A} (R : A -> A -> Prop) idx : forall (base l : list A) vals l',
  np_put l idx vals = Ok l' ->
  Forall2 R base l ->
  Forall2 (fun i v => forall b, nth_error base i = Some b -> R b v) idx vals ->
  Forall2 R base l'.
Proof.
  induction idx as [|i idx IH]; intros base l [|v vals] l' H Hb Hv; simpl in *; try discriminate.
  - injection H as <-; assumption.
  - inv_bind H. apply np_set_ok in Hb0; destruct Hb0 as [Hi ->].
    inversion Hv as [|? ? ? ? Hv1 Hv2]; subst.
    eapply IH; [exact H| |exact Hv2].
    apply Forall2_nth_error; split.
    + rewrite upd_length; eapply Forall2_length; eauto.
    + intros j a b Ha. rewrite nth_error_upd.
      destruct (Nat.eqb_spec j i) as [->|Hne]; simpl.
      * destruct (Nat.ltb_spec i (length l)); [|lia]. intros E; injection E as <-. auto.
      * intros Hlb. apply Forall2_nth_error in Hb; destruct Hb as [_ Hb]; eauto.
Qed.

(** mask, cumsum *)
Lemma mask_length {A} (l : list A) m :
  length m = length l -> length (mask l m) = list_sum (map b2n m).
Proof.
  revert m; induction l as [|a l IH]; intros [|b m] H; simpl in *; try lia; auto.
  destruct b; simpl; rewrite IH; lia.
Qed.

Lemma mask_map {A B} (f : A -> B) l m : mask (map f l) m = map f (mask l m).
Proof.
  revert m; induction l as [|a l IH]; intros [|b m]; simpl; auto.
  destruct b; simpl; rewrite IH; reflexivity.
Qed.

Lemma mask_In {A} (l : list A) m a : In a (mask l m) -> In a l.
Proof.
  revert m; induction l as [|x l IH]; intros [|b m]; simpl; try tauto.
  destruct b; simpl; intuition eauto.
Qed.

Lemma mask_In_iff {A} (l : list A) m a :
  In a (mask l m) <-> exists i, nth_error l i = Some a /\ nth_error m i = Some true.
Proof.
  revert m; induction l as [|x l IH]; intros [|b m]; simpl.
  - split; [tauto|]. intros ([|i] & H & _); discriminate.
  - split; [tauto|]. intros ([|i] & H & _); discriminate.
  - split; [tauto|]. intros ([|i] & _ & H); discriminate.
  - split.
    + destruct b; simpl.
      * intros [->|H]; [exists 0; auto|]. apply IH in H; destruct H as (i & H); exists (S i); auto.
      * intros H. apply IH in H; destruct H as (i & H); exists (S i); auto.
    + intros ([|i] & H1 & H2); simpl in *.
      * injection H1 as ->; injection H2 as ->; left; reflexivity.
      * destruct b; [right|]; apply IH; eauto.
Qed.

Lemma cumsum_from_length m acc : length (cumsum_from acc m) = length m.
Proof. revert acc; induction m; intros; simpl; auto. Qed.

Lemma cumsum_length m : length (cumsum m) = length m.
Proof. apply cumsum_from_length. Qed.

Lemma cumsum_from_nth m : forall acc i,
  i < length m ->
  nth_error (cumsum_from acc m) i = Some (acc + list_sum (map b2n (firstn (S i) m))).
Proof.
  induction m as [|b m IH]; intros acc [|i] H; cbn [length] in H; try lia.
  - cbn. f_equal; lia.
  - cbn [cumsum_from nth_error]. rewrite IH by lia.
    replace (firstn (S (S i)) (b :: m)) with (b :: firstn (S i) m) by reflexivity.
    cbn [map list_sum fold_right]. f_equal. unfold list_sum. lia.
Qed.

Definition count_true (m : list bool) : nat := list_sum (map b2n m).

Lemma cumsum_nth m i :
  i < length m -> nth_error (cumsum m) i = Some (count_true (firstn (S i) m)).
Proof. intros H; unfold cumsum; rewrite cumsum_from_nth by assumption; reflexivity. Qed.

Lemma count_true_app m n : count_true (m ++ n) = count_true m + count_true n.
Proof. unfold count_true; rewrite map_app, list_sum_app; reflexivity. Qed.

Lemma firstn_S_nth {A} (l : list A) i a :
  nth_error l i = Some a -> firstn (S i) l = firstn i l ++ [a].
Proof.
  revert i; induction l as [|x l IH]; intros [|i] H; simpl in *; try discriminate.
  - injection H as ->; reflexivity.
  - f_equal. apply IH; assumption.
Qed.

Lemma count_true_firstn_S m i b :
  nth_error m i = Some b -> count_true (firstn (S i) m) = count_true (firstn i m) + b2n b.
Proof.
  intros H. rewrite (firstn_S_nth _ _ _ H), count_true_app. unfold count_true; simpl; lia.
Qed.

(** The position of a kept entry in the masked array. *)
Lemma mask_nth {A} (l : list A) m i a :
  nth_error m i = Some true -> nth_error l i = Some a ->
  nth_error (mask l m) (count_true (firstn i m)) = Some a.
Proof.
  revert m i; induction l as [|x l IH]; intros [|b m] [|i] Hm Hl; simpl in *; try discriminate.
  - injection Hm as ->; injection Hl as ->; reflexivity.
  - destruct b; unfold count_true in *; simpl; apply IH; assumption.
Qed.

Lemma cumsum_kept m i :
  nth_error m i = Some true ->
  nth_error (map (fun k => k - 1) (cumsum m)) i = Some (count_true (firstn i m)).
Proof.
  intros H. rewrite nth_error_map, cumsum_nth by (eapply nth_error_lt; eauto). simpl.
  change (match m with [] => [] | a :: l => a :: firstn i l end) with (firstn (S i) m).
  rewrite (count_true_firstn_S _ _ _ H). simpl. f_equal; lia.
Qed.

Lemma count_true_le m : count_true m <= length m.
Proof. induction m as [|b m IH]; unfold count_true in *; simpl; [lia|destruct b; simpl; lia]. Qed.

Lemma count_true_negb m : count_true (map negb m) + count_true m = length m.
Proof. induction m as [|b m IH]; unfold count_true in *; simpl; [lia|destruct b; simpl; lia]. Qed.

Lemma mask_len_count {A} (l : list A) m :
  length m = length l -> length (mask l m) = count_true m.
Proof. apply mask_length. Qed.

(** Every position of the masked array comes from a kept entry. *)
Lemma mask_nth_inv {A} (l : list A) m k a :
  nth_error (mask l m) k = Some a ->
  exists i, nth_error l i = Some a /\ nth_error m i = Some true /\ count_true (firstn i m) = k.
Proof.
  revert m k; induction l as [|x l IH]; intros [|b m] k H; simpl in *; try (destruct k; discriminate).
  destruct b.
  - destruct k as [|k]; simpl in *.
    + injection H as ->. exists 0; auto.
    + apply IH in H. destruct H as (i & H1 & H2 & H3). exists (S i); repeat split; auto.
      unfold count_true in *; simpl. lia.
  - apply IH in H. destruct H as (i & H1 & H2 & H3). exists (S i); repeat split; auto.
Qed.

Lemma map2_length {A B C} (f : A -> B -> C) l m : length (map2 f l m) = min (length l) (length m).
Proof. revert m; induction l as [|a l IH]; intros [|b m]; simpl; auto. Qed.

Lemma map2_nth {A B C} (f : A -> B -> C) l m i a b :
  nth_error l i = Some a -> nth_error m i = Some b -> nth_error (map2 f l m) i = Some (f a b).
Proof.
  revert m i; induction l as [|x l IH]; intros [|y m] [|i]; simpl; intros H1 H2; try discriminate.
  - congruence.
  - apply IH; assumption.
Qed.

Lemma arange_nth n i : i < n -> nth_error (arange n) i = Some i.
Proof.
  intros H. unfold arange. rewrite (nth_error_nth' _ 0) by (rewrite seq_length; lia).
  rewrite seq_nth by lia. reflexivity.
Qed.

Lemma arange_length n : length (arange n) = n.
Proof. apply seq_length. Qed.

Lemma arange_In n i : In i (arange n) <-> i < n.
Proof. unfold arange; rewrite in_seq; lia. Qed.

(** memb *)
Lemma memb_In x l : memb x l = true <-> In x l.
Proof.
  unfold memb; rewrite existsb_exists. split.
  - intros (y & Hy & E); apply Nat.eqb_eq in E; subst; assumption.
  - intros H; exists x; split; [assumption|apply Nat.eqb_refl].
Qed.

(** np_unique *)
Lemma insert_nat_In x y l : In y (insert_nat x l) <-> y = x \/ In y l.
Proof.
  induction l as [|z l IH]; simpl; [intuition|].
  destruct (x <? z); [simpl; intuition|].
  destruct (Nat.eqb_spec x z) as [->|Hne]; simpl; [intuition|].
  rewrite IH; intuition.
Qed.

Lemma np_unique_In x l : In x (np_unique l) <-> In x l.
Proof.
  induction l as [|y l IH]; simpl; [tauto|]. rewrite insert_nat_In, IH. intuition.
Qed.

Lemma insert_nat_sorted x l : StronglySorted lt l -> StronglySorted lt (insert_nat x l).
Proof.
  induction l as [|z l IH]; simpl; intros H; [repeat constructor|].
  inversion H as [|? ? Hs Hf]; subst.
  destruct (Nat.ltb_spec x z).
  - constructor; [assumption|]. constructor; [assumption|].
    eapply Forall_impl; [|exact Hf]; simpl; intros; lia.
  - destruct (Nat.eqb_spec x z) as [->|Hne]; [assumption|].
    constructor; [auto|]. apply Forall_forall; intros y Hy.
    apply insert_nat_In in Hy. rewrite Forall_forall in Hf. destruct Hy as [->|Hy]; [lia|auto].
Qed.

Lemma np_unique_sorted l : StronglySorted lt (np_unique l).
Proof. induction l as [|y l IH]; simpl; [constructor|apply insert_nat_sorted; assumption]. Qed.

Lemma sorted_lt_NoDup l : StronglySorted lt l -> NoDup l.
Proof.
  induction 1 as [|a l Hs IH Hf]; constructor; [|assumption].
  intros Ha. rewrite Forall_forall in Hf. specialize (Hf _ Ha). lia.
Qed.

(** isort *)
Section SortFacts.
  Context {A : Type} (le : A -> A -> bool).
  Hypothesis le_total : forall a b, le a b = true \/ le b a = true.
  Hypothesis le_trans : forall a b c, le a b = true -> le b c = true -> le a c = true.
  Let leP a b := le a b = true.

  Lemma insert_perm x l : Permutation (insert le x l) (x :: l).
  Proof.
    induction l as [|y l IH]; simpl; [reflexivity|].
    destruct (le x y); [reflexivity|].
    rewrite IH. apply perm_swap.
  Qed.

  Lemma isort_perm l : Permutation (isort le l) l.
  Proof.
    induction l as [|y l IH]; simpl; [reflexivity|].
    rewrite insert_perm. apply perm_skip, IH.
  Qed.

  Lemma insert_sorted x l : StronglySorted leP l -> StronglySorted leP (insert le x l).
  Proof.
    induction l as [|y l IH]; simpl; intros H; [repeat constructor|].
    inversion H as [|? ? Hs Hf]; subst.
    destruct (le x y) eqn:E.
    - constructor; [assumption|]. constructor; [assumption|].
      eapply Forall_impl; [|exact Hf]. intros z Hz. unfold leP in *. eauto.
    - constructor; [auto|].
      assert (Hyx : leP y x) by (destruct (le_total x y); unfold leP; congruence).
      apply Forall_forall; intros z Hz.
      apply (Permutation_in _ (insert_perm x l)) in Hz.
      destruct Hz as [<-|Hz]; [assumption|]. rewrite Forall_forall in Hf; auto.
  Qed.

  Lemma isort_sorted l : StronglySorted leP (isort le l).
  Proof. induction l as [|y l IH]; simpl; [constructor|apply insert_sorted, IH]. Qed.

  (** Sorting a sorted list changes nothing. *)
  Lemma isort_id l : StronglySorted leP l -> isort le l = l.
  Proof.
    induction l as [|y l IH]; simpl; intros H; [reflexivity|].
    inversion H as [|? ? Hs Hf]; subst. rewrite IH by assumption.
    destruct l as [|z l]; simpl; [reflexivity|].
    inversion Hf as [|? ? Hyz _]; subst. unfold leP in Hyz. rewrite Hyz; reflexivity.
  Qed.
End SortFacts.

Lemma isort_map {A B} (f : A -> B) (le : B -> B -> bool) l :
  map f (isort (fun a b => le (f a) (f b)) l) = isort le (map f l).
Proof.
  induction l as [|x l IH]; simpl; [reflexivity|]. rewrite <- IH.
  generalize (isort (fun a b : A => le (f a) (f b)) l) as s. clear.
  induction s as [|y s IH]; simpl; [reflexivity|].
  destruct (le (f x) (f y)); simpl; [reflexivity|]. rewrite IH; reflexivity.
Qed.

Lemma list_sum_ge {A} (f : A -> nat) l a : In a l -> f a <= list_sum (map f l).
Proof.
  induction l as [|x l IH]; simpl; [tauto|]. unfold list_sum in *. intros [->|H]; [lia|].
  specialize (IH H); lia.
Qed.
