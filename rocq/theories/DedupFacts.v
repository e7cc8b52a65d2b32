(** _deduplicate_points: what it does to points and indices. *)
From Coq Require Import Permutation Sorted.
From Verif Require Import Base Float64 OrientModel MeshModel BaseFacts Float64Facts.

Lemma lexsort_perm c : Permutation (lexsort c) (arange (length c)).
Proof.
  unfold lexsort.
  assert (E : arange (length c) = map fst (combine (arange (length c)) c)).
  { clear. unfold arange. generalize 0. induction c as [|p c IH]; intros n; simpl; [reflexivity|].
    rewrite <- IH. reflexivity. }
  rewrite E at 2. apply Permutation_map, isort_perm.
Qed.

Lemma lexsort_NoDup c : NoDup (lexsort c).
Proof.
  eapply Permutation_NoDup; [symmetry; apply lexsort_perm|]. apply seq_NoDup.
Qed.

Lemma lexsort_In c i : In i (lexsort c) <-> i < length c.
Proof.
  split; intros H.
  - apply arange_In. eapply Permutation_in; [apply lexsort_perm|]; assumption.
  - eapply Permutation_in; [symmetry; apply lexsort_perm|]. apply arange_In; assumption.
Qed.

Lemma combine_arange_nth {A} (c : list A) : forall n i p,
  In (i, p) (combine (seq n (length c)) c) -> n <= i /\ nth_error c (i - n) = Some p.
Proof.
  induction c as [|q c IH]; intros n i p H; simpl in *; [tauto|].
  destruct H as [H|H].
  - injection H as -> ->. rewrite Nat.sub_diag. auto.
  - apply IH in H. destruct H as [H1 H2]. split; [lia|].
    replace (i - n) with (S (i - S n)) by lia. assumption.
Qed.

(** The sorted array is the sort of the point list. *)
Lemma sorted_points c : np_take c (lexsort c) = Ok (isort pt_leb c).
Proof.
  unfold lexsort.
  set (ip := isort (fun a b => pt_leb (snd a) (snd b)) (combine (arange (length c)) c)).
  assert (Hs : map snd ip = isort pt_leb c).
  { unfold ip. rewrite (isort_map snd pt_leb). f_equal.
    unfold arange. generalize 0. induction c as [|p c' IH]; intros n; simpl; [reflexivity|].
    rewrite IH; reflexivity. }
  rewrite <- Hs. apply np_take_ok. rewrite Forall2_map_l, Forall2_map_r.
  assert (Hin : forall x, In x ip -> nth_error c (fst x) = Some (snd x)).
  { intros [i p] H. unfold ip in H. eapply Permutation_in in H; [|apply isort_perm].
    apply combine_arange_nth in H. rewrite Nat.sub_0_r in H. simpl; tauto. }
  clearbody ip. clear Hs.
  induction ip as [|x ip IH]; constructor; [apply Hin; left; reflexivity|].
  apply IH. intros; apply Hin; right; assumption.
Qed.

Lemma isort_pt_sorted c : StronglySorted (fun p q => pt_leb p q = true) (isort pt_leb c).
Proof. apply isort_sorted; [apply pt_leb_total|apply pt_leb_trans]. Qed.

Lemma removelast_nth {A} (l : list A) j : S j < length l -> nth_error (removelast l) j = nth_error l j.
Proof.
  revert j; induction l as [|a l IH]; intros j H; simpl in *; [lia|].
  destruct l as [|b l]; [simpl in H; lia|].
  destruct j as [|j]; [reflexivity|]. simpl nth_error. apply IH. simpl in *; lia.
Qed.

Lemma removelast_length {A} (l : list A) : length (removelast l) = length l - 1.
Proof.
  induction l as [|a l IH]; [reflexivity|]. destruct l as [|b l]; [reflexivity|].
  change (length (removelast (a :: b :: l))) with (S (length (removelast (b :: l)))).
  rewrite IH. simpl; lia.
Qed.

Lemma keep_mask_length s : s <> [] -> length (keep_mask s) = length s.
Proof.
  intros H. unfold keep_mask. simpl. rewrite map2_length, removelast_length.
  destruct s; [congruence|]. simpl; lia.
Qed.

Lemma keep_mask_S s j p q :
  nth_error s j = Some p -> nth_error s (S j) = Some q ->
  nth_error (keep_mask s) (S j) = Some (negb (pt_eqb q p)).
Proof.
  intros Hp Hq. unfold keep_mask. simpl.
  rewrite (map2_nth _ _ _ _ q p); [reflexivity| |].
  - destruct s; [destruct j; discriminate|]. assumption.
  - rewrite removelast_nth by (eapply nth_error_lt; eauto). assumption.
Qed.

(** The new index of the k-th sorted point refers to a point of equal value. *)
Lemma keep_new_index s k p :
  nth_error s k = Some p ->
  exists q, nth_error (mask s (keep_mask s)) (count_true (firstn (S k) (keep_mask s)) - 1) = Some q
            /\ pt_eqb q p = true.
Proof.
  intros Hk. assert (Hs : s <> []) by (destruct s; [destruct k; discriminate|congruence]).
  revert p Hk; induction k as [|k IH]; intros p Hk.
  - exists p. split; [|apply pt_eqb_refl].
    rewrite (count_true_firstn_S _ _ true) by reflexivity.
    change (b2n true) with 1. rewrite Nat.add_sub.
    apply mask_nth; [reflexivity|assumption].
  - destruct (nth_error_total s k) as [p0 Hp0]; [apply nth_error_lt in Hk; lia|].
    pose proof (keep_mask_S _ _ _ _ Hp0 Hk) as Hm.
    destruct (pt_eqb p p0) eqn:E; cbn [negb] in Hm.
    + rewrite (count_true_firstn_S _ _ _ Hm). unfold b2n at 1. rewrite Nat.add_0_r.
      destruct (IH _ Hp0) as (q & Hq & Eq). exists q; split; [assumption|].
      eapply pt_eqb_trans; [exact Eq|]. rewrite pt_eqb_sym; assumption.
    + exists p; split; [|apply pt_eqb_refl].
      rewrite (count_true_firstn_S _ _ _ Hm).
      change (b2n true) with 1. rewrite Nat.add_sub.
      apply mask_nth; assumption.
Qed.

(** The kept points are strictly increasing. *)
Lemma StronglySorted_nth {A} (R : A -> A -> Prop) l i j a b :
  StronglySorted R l -> i < j -> nth_error l i = Some a -> nth_error l j = Some b -> R a b.
Proof.
  intros H; revert i j; induction H as [|x l Hs IH Hf]; intros i j Hij Ha Hb;
    [destruct i; discriminate|].
  destruct j as [|j]; [lia|]. destruct i as [|i]; simpl in *.
  - injection Ha as ->. rewrite Forall_forall in Hf. apply Hf. eapply nth_error_In; eauto.
  - apply (IH i j); auto; lia.
Qed.

Lemma StronglySorted_of_nth {A} (R : A -> A -> Prop) l :
  (forall i j a b, i < j -> nth_error l i = Some a -> nth_error l j = Some b -> R a b) ->
  StronglySorted R l.
Proof.
  induction l as [|x l IH]; intros H; constructor.
  - apply IH. intros i j a b Hij; apply (H (S i) (S j)); lia.
  - apply Forall_forall. intros y Hy. apply In_nth_error in Hy. destruct Hy as [j Hj].
    apply (H 0 (S j)); auto; lia.
Qed.

Lemma count_true_firstn_mono m : forall i j, i <= j -> count_true (firstn i m) <= count_true (firstn j m).
Proof.
  induction m as [|b m IH]; intros [|i] [|j] H; unfold count_true in *; simpl; try lia.
  specialize (IH i j ltac:(lia)). lia.
Qed.

Lemma mask_sorted {A} (R : A -> A -> Prop) l m :
  (forall i j a b, i < j -> nth_error l i = Some a -> nth_error l j = Some b ->
     nth_error m i = Some true -> nth_error m j = Some true -> R a b) ->
  StronglySorted R (mask l m).
Proof.
  intros H. apply StronglySorted_of_nth. intros i j a b Hij Ha Hb.
  apply mask_nth_inv in Ha. apply mask_nth_inv in Hb.
  destruct Ha as (i' & Ha & Hma & Hi). destruct Hb as (j' & Hb & Hmb & Hj).
  apply (H i' j'); auto.
  destruct (Nat.lt_ge_cases i' j') as [|Hle]; [assumption|].
  pose proof (count_true_firstn_mono m j' i' Hle). lia.
Qed.

Lemma keep_strict c :
  StronglySorted pt_lt (mask (isort pt_leb c) (keep_mask (isort pt_leb c))).
Proof.
  pose proof (isort_pt_sorted c) as Hs. set (s := isort pt_leb c) in *.
  apply mask_sorted. intros i j a b Hij Ha Hb _ Hmb.
  destruct j as [|j]; [lia|].
  destruct (nth_error_total s j) as [p Hp]; [apply nth_error_lt in Hb; lia|].
  rewrite (keep_mask_S _ _ _ _ Hp Hb) in Hmb. injection Hmb as Hmb.
  apply negb_true_iff in Hmb.
  pose proof (StronglySorted_nth _ _ _ _ _ _ Hs (Nat.lt_succ_diag_r j) Hp Hb) as Hpb.
  simpl in Hpb. apply pt_leb_key in Hpb. destruct Hpb as [Hpb|Hpb].
  - destruct (Nat.eq_dec i j) as [->|Hne]; [assert (p = a) by congruence; subst; exact Hpb|].
    assert (Hap : pt_leb a p = true) by (refine (StronglySorted_nth _ _ i j _ _ Hs _ Ha Hp); lia).
    apply pt_leb_key in Hap. unfold pt_lt. destruct Hap as [Hap|Hap].
    + eapply key_lt_trans; eauto.
    + rewrite Hap; assumption.
  - symmetry in Hpb. apply pt_eqb_key in Hpb. congruence.
Qed.

(** Summary used by the mesh theorems: an old-to-new index map and the new points. *)
Record dedup_spec (pts : list point) (o2n : list nat) (pts' : list point) : Prop := {
  ds_len : length o2n = length pts;
  ds_value : forall i p, nth_error pts i = Some p ->
     exists i' q, nth_error o2n i = Some i' /\ nth_error pts' i' = Some q /\
                  pt_eqb q (pt_trunc p) = true;
  ds_strict : StronglySorted pt_lt pts';
  ds_origin : forall q, In q pts' -> exists p, In p pts /\ q = pt_trunc p
}.

Definition set_arrays (m : mesh) pts lines tris : mesh :=
  {| m_points := pts; m_lines := mkarr (aw (m_lines m)) lines;
     m_triangles := mkarr (aw (m_triangles m)) tris;
     m_plines := m_plines m; m_ptriangles := m_ptriangles m |}.

Lemma dedup_index_map o (c : list point) :
  c <> [] ->
  exists o2n,
    np_put (map (o_junk o) (arange (length c))) (lexsort c)
       (map (fun k => k - 1) (cumsum (keep_mask (isort pt_leb c)))) = Ok o2n /\
    length o2n = length c /\
    (forall k i, nth_error (lexsort c) k = Some i ->
        nth_error o2n i = Some (count_true (firstn (S k) (keep_mask (isort pt_leb c))) - 1)).
Proof.
  intros Hc.
  assert (Hlen : length (isort pt_leb c) = length c) by (apply Permutation_length, isort_perm).
  assert (Hls : length (lexsort c) = length c).
  { rewrite (Permutation_length (lexsort_perm c)). apply arange_length. }
  assert (Hsne : isort pt_leb c <> []).
  { intros E. rewrite E in Hlen. destruct c; [congruence|simpl in Hlen; lia]. }
  pose proof (keep_mask_length _ Hsne) as Hkl.
  destruct (np_put_total (lexsort c) (map (o_junk o) (arange (length c)))
       (map (fun k => k - 1) (cumsum (keep_mask (isort pt_leb c))))) as [o2n Ho].
  - rewrite map_length, cumsum_length. lia.
  - intros i Hi. rewrite map_length, arange_length. apply lexsort_In; assumption.
  - exists o2n. split; [assumption|]. split.
    + apply np_put_length in Ho. rewrite map_length, arange_length in Ho. tauto.
    + intros k i Hk. rewrite (np_put_NoDup _ _ _ _ _ _ Ho (lexsort_NoDup c) Hk).
      rewrite nth_error_map, cumsum_nth; [reflexivity|].
      apply nth_error_lt in Hk. lia.
Qed.

Lemma deduplicate_ok o m m' :
  deduplicate o m = Ok m' -> m_points m <> [] ->
  exists o2n pts' lines tris,
    dedup_spec (m_points m) o2n pts' /\
    mapM (np_take o2n) (arows (m_lines m)) = Ok lines /\
    mapM (np_take o2n) (arows (m_triangles m)) = Ok tris /\
    m' = set_arrays m pts' lines tris.
Proof.
  intros H Hne. unfold deduplicate in H.
  destruct (m_points m) as [|p0 pts0] eqn:Ep; [congruence|]. rewrite <- Ep in *.
  set (c := map pt_trunc (m_points m)) in *.
  assert (Hc : c <> []) by (unfold c; rewrite Ep; discriminate).
  rewrite sorted_points in H. cbn [bind] in H.
  destruct (dedup_index_map o c Hc) as (o2n & Ho & Hol & Hoi).
  rewrite Ho in H. cbn [bind] in H.
  inv_bind H. inv_bind H. injection H as <-.
  exists o2n, (mask (isort pt_leb c) (keep_mask (isort pt_leb c))), a0, a.
  repeat split; try assumption.
  - unfold c in Hol; rewrite map_length in Hol; assumption.
  - intros i p Hp.
    assert (Hi : i < length c) by (unfold c; rewrite map_length; eapply nth_error_lt; eauto).
    pose proof (proj2 (lexsort_In c i) Hi) as Hin. apply In_nth_error in Hin.
    destruct Hin as [k Hk].
    pose proof (np_take_nth _ _ _ _ _ (sorted_points c) Hk) as Hs.
    assert (Ec : nth_error c i = Some (pt_trunc p)) by (unfold c; rewrite nth_error_map, Hp; reflexivity).
    rewrite Ec in Hs.
    destruct (keep_new_index _ _ _ Hs) as (q & Hq & Eq).
    exists (count_true (firstn (S k) (keep_mask (isort pt_leb c))) - 1), q.
    split; [apply Hoi; assumption|]. split; assumption.
  - apply keep_strict.
  - intros q Hq. apply mask_In in Hq.
    eapply Permutation_in in Hq; [|apply isort_perm]. unfold c in Hq.
    apply in_map_iff in Hq. destruct Hq as (p & <- & Hp). eauto.
Qed.

Lemma deduplicate_total o m :
  (forall r i, In r (arows (m_lines m)) -> In i r -> i < length (m_points m)) ->
  (forall r i, In r (arows (m_triangles m)) -> In i r -> i < length (m_points m)) ->
  exists m', deduplicate o m = Ok m'.
Proof.
  intros Hl Ht. unfold deduplicate.
  destruct (m_points m) as [|p0 pts0] eqn:Ep; [eauto|]. rewrite <- Ep in *.
  set (c := map pt_trunc (m_points m)).
  assert (Hc : c <> []) by (unfold c; rewrite Ep; discriminate).
  assert (Hcl : length c = length (m_points m)) by (unfold c; apply map_length).
  rewrite sorted_points. cbn [bind].
  destruct (dedup_index_map o c Hc) as (o2n & Ho & Hol & Hoi).
  rewrite Ho. cbn [bind].
  destruct (mapM_total (np_take o2n) (arows (m_triangles m))) as [t Et].
  { intros r Hr. apply np_take_total. intros i Hi. rewrite Hol, Hcl. eauto. }
  rewrite Et. cbn [bind].
  destruct (mapM_total (np_take o2n) (arows (m_lines m))) as [l El].
  { intros r Hr. apply np_take_total. intros i Hi. rewrite Hol, Hcl. eauto. }
  rewrite El. cbn [bind]. eauto.
Qed.

(** On points that are already truncated and strictly increasing nothing is renumbered. *)
Definition canonical_points (pts : list point) : Prop :=
  StronglySorted pt_lt pts /\ Forall (fun p => pt_trunc p = p) pts.

Lemma dedup_spec_canonical pts o2n pts' : dedup_spec pts o2n pts' -> canonical_points pts'.
Proof.
  intros [H1 H2 H3 H4]; split; [assumption|]. apply Forall_forall. intros q Hq.
  apply H4 in Hq. destruct Hq as (p & _ & ->). apply pt_trunc_idem.
Qed.
