(** Operations built on the constructor: idempotence, addition. *)
From Coq Require Import Permutation Relations Sorted.
From Verif Require Import Base Float64 OrientModel MeshModel MeshSpec BaseFacts Float64Facts
  OrientFacts LabelFacts DedupFacts MeshFacts MeshCtor.

(** ** Canonical points are not renumbered *)
Lemma strict_key_inj l : StronglySorted pt_lt l -> forall i j a b,
  nth_error l i = Some a -> nth_error l j = Some b -> pt_key a = pt_key b -> i = j.
Proof.
  intros Hs i j a b Ha Hb E. destruct (Nat.lt_trichotomy i j) as [H|[H|H]]; [|assumption|]; exfalso.
  - pose proof (StronglySorted_nth _ _ _ _ _ _ Hs H Ha Hb) as Hl. unfold pt_lt in Hl.
    rewrite E in Hl. eapply key_lt_irrefl; eauto.
  - pose proof (StronglySorted_nth _ _ _ _ _ _ Hs H Hb Ha) as Hl. unfold pt_lt in Hl.
    rewrite E in Hl. eapply key_lt_irrefl; eauto.
Qed.

Lemma sorted_map_key l : StronglySorted pt_lt l -> StronglySorted key_lt (map pt_key l).
Proof.
  induction 1 as [|a l Hs IH Ha]; simpl; constructor; auto.
  rewrite Forall_map. exact Ha.
Qed.

Lemma nth_error_ext {A} (l m : list A) : (forall i, nth_error l i = nth_error m i) -> l = m.
Proof.
  revert m; induction l as [|a l IH]; intros [|b m] H; auto.
  - specialize (H 0); discriminate.
  - specialize (H 0); discriminate.
  - f_equal; [specialize (H 0); simpl in H; congruence|].
    apply IH. intros i; apply (H (S i)).
Qed.

Lemma canonical_unique l m :
  canonical_points l -> canonical_points m ->
  (forall q, In q l -> In q m) -> (forall k, In k (map pt_key m) -> In k (map pt_key l)) -> l = m.
Proof.
  intros [Hl _] [Hm _] Hin Hk.
  assert (E : map pt_key l = map pt_key m).
  { apply strict_sorted_unique; try (apply sorted_map_key; assumption).
    intros k; split; [|apply Hk]. intros H. apply in_map_iff in H. destruct H as (q & <- & Hq).
    apply in_map, Hin, Hq. }
  apply nth_error_ext. intros i.
  destruct (nth_error l i) as [q|] eqn:Eq.
  - pose proof (map_nth_error pt_key _ _ Eq) as H1. rewrite E in H1.
    rewrite nth_error_map in H1. destruct (nth_error m i) as [q'|] eqn:Eq'; [|discriminate].
    cbn [option_map] in H1. assert (Ek : pt_key q = pt_key q') by congruence.
    pose proof (Hin q (nth_error_In _ _ Eq)) as Hq. apply In_nth_error in Hq. destruct Hq as [j Hj].
    assert (j = i) by (apply (strict_key_inj m Hm j i q q'); first [assumption|congruence]). subst j. congruence.
  - apply nth_error_None in Eq. symmetry. apply nth_error_None.
    rewrite <- (map_length pt_key m), <- E, map_length. assumption.
Qed.

Lemma dedup_canonical pts o2n pts' :
  canonical_points pts -> dedup_spec pts o2n pts' -> pts' = pts /\ o2n = arange (length pts).
Proof.
  intros Hc Hd. pose proof (dedup_spec_canonical _ _ _ Hd) as Hc'.
  pose proof Hd as [D1 D2 D3 D4].
  assert (Ht : forall p, In p pts -> pt_trunc p = p) by (destruct Hc as [_ Hc]; rewrite Forall_forall in Hc; exact Hc).
  assert (E : pts' = pts).
  { apply canonical_unique; auto.
    - intros q Hq. apply D4 in Hq. destruct Hq as (p & Hp & ->). rewrite Ht; assumption.
    - intros k Hk. apply in_map_iff in Hk. destruct Hk as (p & <- & Hp).
      pose proof (In_nth_error _ _ Hp) as [i Hi]. destruct (D2 _ _ Hi) as (i' & q & _ & Hq & Eq).
      apply in_map_iff. exists q. split; [|eapply nth_error_In; eauto].
      rewrite Ht in Eq by assumption. apply pt_eqb_key; assumption. }
  split; [assumption|]. subst pts'.
  apply nth_error_ext. intros i.
  destruct (nth_error pts i) as [p|] eqn:Ep.
  - destruct (D2 _ _ Ep) as (i' & q & Hi' & Hq & Eq).
    rewrite (Ht p) in Eq by (eapply nth_error_In; eauto).
    apply pt_eqb_key in Eq.
    assert (i' = i) by (eapply (strict_key_inj pts); eauto). subst i'.
    rewrite Hi', arange_nth; [reflexivity|eapply nth_error_lt; eauto].
  - apply nth_error_None in Ep.
    rewrite (proj2 (nth_error_None _ _)) by lia. symmetry. apply nth_error_None.
    rewrite arange_length; assumption.
Qed.

Lemma np_take_arange n r : (forall i, In i r -> i < n) -> np_take (arange n) r = Ok r.
Proof.
  intros H. apply np_take_ok. induction r as [|i r IH]; constructor.
  - apply arange_nth, H; left; reflexivity.
  - apply IH. intros; apply H; right; assumption.
Qed.

Lemma mapM_id {A} (f : A -> result A) l : (forall a, In a l -> f a = Ok a) -> mapM f l = Ok l.
Proof.
  intros H. rewrite (mapM_pure f (fun a => a)); [rewrite map_id; reflexivity|assumption].
Qed.

Lemma mapM_dict_id {A} (f : A -> result A) d :
  (forall k v, In (k, v) d -> f v = Ok v) -> mapM_dict f d = Ok d.
Proof.
  induction d as [|[k v] d IH]; intros H; simpl; [reflexivity|].
  rewrite (H k v) by (left; reflexivity). cbn [bind].
  rewrite IH by (intros; eapply H; right; eauto). reflexivity.
Qed.

Lemma filter_all {A} (f : A -> bool) l : (forall a, In a l -> f a = true) -> filter f l = l.
Proof.
  induction l as [|a l IH]; intros H; simpl; [reflexivity|].
  rewrite (H a) by (left; reflexivity). f_equal. apply IH. intros; apply H; right; assumption.
Qed.

(** Rebuilding a mesh (all of whose triangles pass the area test) from its own arrays,
    without reorienting, returns exactly that mesh; with reorienting only directions
    of elements can change. *)
Lemma rebuild_fixpoint o m :
  mesh_ok m -> canonical_points (m_points m) -> aw (m_triangles m) = 3 ->
  (forall r, In r (arows (m_triangles m)) -> survives o (m_points m) r = true) ->
  new_mesh o (m_points m) (m_lines m) (m_triangles m) (m_plines m) (m_ptriangles m) false = Ok m.
Proof.
  intros Hok Hc Hw Hs. pose proof Hok as [Kp Kl Kt Kpl Kpt].
  destruct (pre_mesh_total o _ _ _ _ _ false Hok) as [m' Em'].
  assert (E : m' = m); [|subst m'; rewrite new_mesh_pre, Em'; cbn [bind];
    rewrite (mesh_ok_check _ Hok); reflexivity].
  unfold pre_mesh in Em'.
  set (tris := match arows (m_triangles m) with [] => mkarr 3 [] | _ => m_triangles m end) in *.
  assert (Etris : tris = m_triangles m).
  { unfold tris. destruct (m_triangles m) as [tw tr] eqn:E; simpl in *. destruct tr; subst; reflexivity. }
  rewrite Etris in Em'. clear tris Etris.
  apply bind_ok in Em'. destruct Em' as (m1 & E1 & Em').
  apply bind_ok in Em'. destruct Em' as (m2 & E2 & Em'). injection Em' as <-.
  assert (H1 : m1 = m).
  { unfold remove_degenerate in E1. simpl in E1.
    apply bind_ok in E1. destruct E1 as (deg & Hdeg & E1).
    apply bind_ok in E1. destruct E1 as (pt1 & Hpt1 & E1). injection E1 as <-.
    apply degenerate_flags_ok in Hdeg.
    assert (Emask : mask (arows (m_triangles m)) (map negb deg) = arows (m_triangles m)).
    { rewrite Hdeg, map_map. rewrite mask_filter. apply filter_all.
      intros r Hr. rewrite negb_involutive. auto. }
    assert (Ept : pt1 = m_ptriangles m).
    { enough (mapM_dict (remap_group deg) (m_ptriangles m) = Ok (m_ptriangles m)) by congruence.
      apply mapM_dict_id. intros k v Hkv.
      destruct (remap_group_total deg v) as [v' Ev].
      { intros i Hi. rewrite Hdeg, map_length. eapply Kpt; eauto. }
      rewrite Ev. f_equal. rewrite (remap_group_survivors _ _ _ _ _ _ Hdeg Ev).
      assert (Hlt : forall i, In i v -> i < length (arows (m_triangles m))) by (intros; eapply Kpt; eauto).
      clear Ev Hkv. unfold survivors. rewrite filter_all.
      - rewrite <- (map_id v) at 2. apply map_ext_in. intros i Hi. unfold rank.
        rewrite filter_all.
        + apply firstn_length_le. apply Hlt in Hi; lia.
        + intros r Hr. apply Hs. rewrite <- (firstn_skipn i). apply in_or_app; auto.
      - intros i Hi. destruct (nth_error_total _ _ (Hlt i Hi)) as [r Er]. rewrite Er.
        apply Hs. eapply nth_error_In; eauto. }
    rewrite Emask, Ept. destruct m as [p l [tw tr] pl pt]; reflexivity. }
  subst m1.
  assert (R1 : rows_ok (length (m_points m)) (arows (m_lines m)))
    by (eapply arr_ok_rows; [|exact Kl]; simpl; lia).
  assert (R2 : rows_ok (length (m_points m)) (arows (m_triangles m)))
    by (eapply arr_ok_rows; [|exact Kt]; simpl; lia).
  destruct (deduplicate_uniform _ _ _ R1 R2 E2) as (o2n & pts' & ls & ts & Hds & El & Et & ->).
  destruct (dedup_canonical _ _ _ Hc Hds) as [-> ->].
  rewrite mapM_id in El by (intros r Hr; apply np_take_arange; apply R1; assumption).
  rewrite mapM_id in Et by (intros r Hr; apply np_take_arange; apply R2; assumption).
  injection El as <-. injection Et as <-.
  destruct m as [p [lw lr] [tw tr] pl pt]; reflexivity.
Qed.

(** ** Dicts *)
Lemma dget_dset {A} (d : list (string * A)) k v k' :
  dget (dset d k v) k' = if String.eqb k k' then Some v else dget d k'.
Proof.
  induction d as [|[k1 v1] d IH]; simpl; [reflexivity|].
  destruct (String.eqb_spec k1 k) as [->|Hne]; simpl.
  - destruct (String.eqb_spec k k'); reflexivity.
  - rewrite IH. destruct (String.eqb_spec k1 k') as [->|]; [|reflexivity].
    destruct (String.eqb_spec k k'); [congruence|reflexivity].
Qed.

Lemma dkeys_dset {A} (d : list (string * A)) k v :
  dkeys (dset d k v) = if dhas d k then dkeys d else dkeys d ++ [k].
Proof.
  unfold dhas. induction d as [|[k1 v1] d IH]; simpl; [reflexivity|].
  destruct (String.eqb_spec k1 k) as [->|Hne]; simpl; [reflexivity|].
  rewrite IH. destruct (dget d k); reflexivity.
Qed.

Lemma dget_None {A} (d : list (string * A)) k : dget d k = None <-> ~ In k (dkeys d).
Proof.
  induction d as [|[k1 v1] d IH]; simpl; [tauto|].
  destruct (String.eqb_spec k1 k) as [->|Hne]; split; intros H; try discriminate; try tauto;
    try (exfalso; apply H; left; reflexivity); rewrite ?IH in *; tauto.
Qed.

Lemma dset_NoDup {A} (d : list (string * A)) k v : NoDup (dkeys d) -> NoDup (dkeys (dset d k v)).
Proof.
  intros H. rewrite dkeys_dset. unfold dhas. destruct (dget d k) eqn:E; [assumption|].
  apply dget_None in E.
  eapply Permutation_NoDup; [apply Permutation_cons_append|]. constructor; assumption.
Qed.

Definition all_of (l : dict) (k : string) : list nat :=
  concat (map snd (filter (fun x => String.eqb (fst x) k) l)).

Lemma dget_merge l : forall acc k,
  dget (fold_left merge_step l acc) k =
  match dget acc k with
  | Some v => Some (v ++ all_of l k)
  | None => if dhas l k then Some (all_of l k) else None
  end.
Proof.
  unfold dhas. induction l as [|[k1 v1] l IH]; intros acc k; simpl.
  - unfold all_of; simpl. destruct (dget acc k); [rewrite app_nil_r|]; reflexivity.
  - rewrite IH. unfold merge_step. simpl.
    destruct (String.eqb_spec k1 k) as [->|Hne].
    + unfold all_of; simpl; rewrite String.eqb_refl; simpl.
      destruct (dget acc k) as [v0|] eqn:E; rewrite dget_dset, String.eqb_refl;
        [rewrite app_assoc|]; reflexivity.
    + assert (E : dget (merge_step acc (k1, v1)) k = dget acc k).
      { unfold merge_step; simpl.
        destruct (dget acc k1); rewrite dget_dset; destruct (String.eqb_spec k1 k); congruence. }
      unfold merge_step in E; simpl in E.
      rewrite E. unfold all_of; simpl.
      destruct (String.eqb_spec k1 k); [congruence|]. reflexivity.
Qed.

Lemma all_of_app a b k : all_of (a ++ b) k = all_of a k ++ all_of b k.
Proof. unfold all_of. rewrite filter_app, map_app, concat_app. reflexivity. Qed.

Lemma all_of_get d k : NoDup (dkeys d) -> all_of d k = match dget d k with Some v => v | None => [] end.
Proof.
  induction d as [|[k1 v1] d IH]; intros H; simpl; [reflexivity|].
  apply NoDup_cons_iff in H. destruct H as [Hk H].
  unfold all_of in *; simpl. destruct (String.eqb_spec k1 k) as [->|Hne]; simpl; [|auto].
  rewrite IH by assumption. simpl in Hk. apply dget_None in Hk. rewrite Hk. apply app_nil_r.
Qed.

Lemma dget_app {A} (a b : list (string * A)) k :
  dget (a ++ b) k = match dget a k with Some v => Some v | None => dget b k end.
Proof.
  induction a as [|[k1 v1] a IH]; simpl; [reflexivity|]. destruct (String.eqb k1 k); auto.
Qed.

Lemma merge_dicts_get d1 d2 k :
  NoDup (dkeys d1) -> NoDup (dkeys d2) ->
  dget (merge_dicts d1 d2) k = both (dget d1 k) (dget d2 k).
Proof.
  intros H1 H2. unfold merge_dicts. rewrite dget_merge. simpl. unfold dhas.
  rewrite dget_app, all_of_app, !all_of_get by assumption.
  destruct (dget d1 k) as [v1|], (dget d2 k) as [v2|]; simpl; rewrite ?app_nil_r; reflexivity.
Qed.

Lemma merge_fold_NoDup l : forall acc, NoDup (dkeys acc) -> NoDup (dkeys (fold_left merge_step l acc)).
Proof.
  induction l as [|[k v] l IH]; intros acc H; simpl; [assumption|].
  apply IH. unfold merge_step; simpl. destruct (dget acc k); apply dset_NoDup; assumption.
Qed.

Lemma offset_dict_keys k d : dkeys (offset_dict k d) = dkeys d.
Proof. unfold dkeys, offset_dict. rewrite map_map. reflexivity. Qed.
Lemma offset_dict_get n d k : dget (offset_dict n d) k = option_map (map (fun i => i + n)) (dget d k).
Proof.
  induction d as [|[k1 v1] d IH]; simpl; [reflexivity|]. destruct (String.eqb k1 k); [reflexivity|exact IH].
Qed.

Lemma merge_groups_ok n1 n2 d1 d2 :
  groups_ok n1 d1 -> groups_ok n2 d2 -> groups_ok (n1 + n2) (merge_dicts d1 (offset_dict n1 d2)).
Proof.
  intros [H1 G1] [H2 G2].
  assert (Hnd : NoDup (dkeys (merge_dicts d1 (offset_dict n1 d2)))).
  { unfold merge_dicts. apply merge_fold_NoDup. constructor. }
  split; [assumption|]. intros name v i Hin Hi.
  apply In_dget in Hin; [|assumption].
  rewrite merge_dicts_get in Hin by (rewrite ?offset_dict_keys; assumption).
  rewrite offset_dict_get in Hin.
  assert (A1 : forall v1 j, dget d1 name = Some v1 -> In j v1 -> j < n1 + n2).
  { intros v1 j Hv Hj. apply dget_In in Hv. specialize (G1 _ _ _ Hv Hj). lia. }
  assert (A2 : forall v2 j, dget d2 name = Some v2 -> In j (map (fun i => i + n1) v2) -> j < n1 + n2).
  { intros v2 j Hv Hj. apply in_map_iff in Hj. destruct Hj as (x & <- & Hx).
    apply dget_In in Hv. specialize (G2 _ _ _ Hv Hx). lia. }
  destruct (dget d1 name) as [v1|] eqn:E1, (dget d2 name) as [v2|] eqn:E2; simpl in Hin; try discriminate;
    injection Hin as <-; eauto.
  apply in_app_iff in Hi. destruct Hi; eauto.
Qed.

(** ** Mesh addition *)

Lemma concat_arr_ok n1 n2 ws a b :
  arr_ok ws n1 a -> arr_ok ws n2 b -> compatible a b ->
  exists c, concat_arr a (offset_rows n1 b) = Ok c /\ arr_ok ws (n1 + n2) c /\
            arows c = arows a ++ map (map (fun i => i + n1)) (arows b).
Proof.
  intros [Ha1 Ha2] [Hb1 Hb2] Hc.
  assert (Hb' : arr_ok ws (n1 + n2) (offset_rows n1 b)).
  { split; simpl.
    - intros H. apply Hb1. intros E; rewrite E in H; apply H; reflexivity.
    - intros r Hr. apply in_map_iff in Hr. destruct Hr as (r0 & <- & Hr0).
      rewrite map_length. split; [apply Hb2; assumption|].
      intros i Hi. apply in_map_iff in Hi. destruct Hi as (j & <- & Hj).
      apply Hb2 in Hr0. destruct Hr0 as [_ H]. specialize (H _ Hj). lia. }
  assert (Ha' : arr_ok ws (n1 + n2) a).
  { split; [assumption|]. intros r Hr. destruct (Ha2 r Hr) as [H1 H2].
    split; [assumption|]. intros i Hi. specialize (H2 i Hi). lia. }
  unfold concat_arr. destruct (arows a) as [|ra rsa] eqn:Ea.
  - exists (offset_rows n1 b). auto.
  - simpl arows at 1. destruct (arows b) as [|rb rsb] eqn:Eb.
    + simpl. exists a. rewrite app_nil_r, <- Ea. auto.
    + simpl. destruct Hc as [Hc|[Hc|Hc]]; [congruence|congruence|].
      rewrite (proj2 (Nat.eqb_eq _ _) Hc). cbn [py_assert bind].
      eexists; split; [reflexivity|]. split; [|cbn [arows]; rewrite Eb; reflexivity].
      split; [intros _; apply Ha1; congruence|].
      cbn [arows aw]. intros r [Hr|Hr].
      * apply Ha'. rewrite Ea; left; assumption.
      * apply in_app_iff in Hr. destruct Hr as [Hr|Hr].
        -- apply Ha'. rewrite Ea; right; assumption.
        -- rewrite Hc. apply Hb'. exact Hr.
Qed.

Lemma nth_error_offset (p1 p2 : list point) i : nth_error (p1 ++ p2) (i + length p1) = nth_error p2 i.
Proof. rewrite nth_error_app2 by lia. f_equal; lia. Qed.

Lemma same_place_app_l p1 p2 r pts' r' :
  (forall i, In i r -> i < length p1) ->
  same_place (p1 ++ p2) r pts' r' -> same_place p1 r pts' r'.
Proof.
  intros Hi H. unfold same_place in *. induction H as [|i i' l l' (p & q & A & B & C) H IH]; constructor.
  - rewrite nth_error_app1 in A by (apply Hi; left; reflexivity). eauto.
  - apply IH. intros; apply Hi; right; assumption.
Qed.
Lemma same_place_app_r p1 p2 r pts' r' :
  same_place (p1 ++ p2) (map (fun i => i + length p1) r) pts' r' -> same_place p2 r pts' r'.
Proof.
  unfold same_place. intros H. apply Forall2_map_l in H.
  eapply Forall2_impl_all; [|exact H]. simpl. intros i i' (p & q & A & B & C).
  rewrite nth_error_offset in A. eauto.
Qed.

Lemma reversed_line_map f r : reversed_line (map f r) = map f (reversed_line r).
Proof. destruct r as [|a [|b [|c [|d [|e r]]]]]; reflexivity. Qed.
Lemma reversed_triangle_map f r : reversed_triangle (map f r) = map f (reversed_triangle r).
Proof. destruct r as [|a [|b [|c [|d r]]]]; reflexivity. Qed.

Lemma same_line_app_l p1 p2 r pts' r' :
  (forall i, In i r -> i < length p1) -> same_line (p1 ++ p2) r pts' r' -> same_line p1 r pts' r'.
Proof.
  intros Hi [H|H]; [left|right]; eapply same_place_app_l; eauto.
  intros i; rewrite reversed_line_In; auto.
Qed.
Lemma same_line_app_r p1 p2 r pts' r' :
  same_line (p1 ++ p2) (map (fun i => i + length p1) r) pts' r' -> same_line p2 r pts' r'.
Proof.
  intros [H|H]; [left|right]; [|rewrite reversed_line_map in H]; eapply same_place_app_r; eauto.
Qed.
Lemma same_triangle_app_l p1 p2 r pts' r' :
  (forall i, In i r -> i < length p1) -> same_triangle (p1 ++ p2) r pts' r' -> same_triangle p1 r pts' r'.
Proof.
  intros Hi [H|H]; [left|right]; eapply same_place_app_l; eauto.
  intros i; rewrite reversed_triangle_In; auto.
Qed.
Lemma same_triangle_app_r p1 p2 r pts' r' :
  same_triangle (p1 ++ p2) (map (fun i => i + length p1) r) pts' r' -> same_triangle p2 r pts' r'.
Proof.
  intros [H|H]; [left|right]; [|rewrite reversed_triangle_map in H]; eapply same_place_app_r; eauto.
Qed.

Lemma survives_app_l o p1 p2 r :
  (forall i, In i r -> i < length p1) -> survives o (p1 ++ p2) r = survives o p1 r.
Proof.
  intros Hi. unfold survives.
  assert (E : map (nth_error (p1 ++ p2)) (firstn 3 r) = map (nth_error p1) (firstn 3 r)).
  { apply map_ext_in. intros i H. apply nth_error_app1. apply Hi.
    rewrite <- (firstn_skipn 3 r). apply in_or_app; auto. }
  rewrite E. reflexivity.
Qed.
Lemma survives_app_r o p1 p2 r :
  survives o (p1 ++ p2) (map (fun i => i + length p1) r) = survives o p2 r.
Proof.
  unfold survives. rewrite firstn_map, map_map.
  assert (E : map (fun i => nth_error (p1 ++ p2) (i + length p1)) (firstn 3 r) = map (nth_error p2) (firstn 3 r)).
  { apply map_ext. intros i. apply nth_error_offset. }
  rewrite E. reflexivity.
Qed.

Lemma filter_map_comm {A B} (f : A -> B) g l : filter g (map f l) = map f (filter (fun a => g (f a)) l).
Proof. induction l as [|a l IH]; simpl; [reflexivity|]. destruct (g (f a)); simpl; rewrite IH; reflexivity. Qed.

Lemma filter_ext_in' {A} (f g : A -> bool) l : (forall a, In a l -> f a = g a) -> filter f l = filter g l.
Proof.
  induction l as [|a l IH]; intros H; simpl; [reflexivity|].
  rewrite (H a) by (left; reflexivity). rewrite IH by (intros; apply H; right; assumption). reflexivity.
Qed.

Lemma Forall2_app_l {A B} (R : A -> B -> Prop) l1 l2 m :
  Forall2 R (l1 ++ l2) m -> exists m1 m2, m = m1 ++ m2 /\ Forall2 R l1 m1 /\ Forall2 R l2 m2.
Proof. intros H. apply Forall2_app_inv_l in H. destruct H as (m1 & m2 & H1 & H2 & ->). eauto. Qed.

Lemma Forall2_in_impl {A B} (R S : A -> B -> Prop) l m :
  (forall a b, In a l -> R a b -> S a b) -> Forall2 R l m -> Forall2 S l m.
Proof.
  intros H F. induction F as [|a b l m Hab F IH]; constructor.
  - apply H; [left; reflexivity|assumption].
  - apply IH. intros; apply H; [right|]; assumption.
Qed.

Lemma rank_app_l f a b i : i <= length a -> rank f (a ++ b) i = rank f a i.
Proof.
  intros H. unfold rank. rewrite firstn_app. replace (i - length a) with 0 by lia.
  simpl. rewrite app_nil_r. reflexivity.
Qed.
Lemma rank_app_r f a b i : rank f (a ++ b) (i + length a) = rank f b i + length (filter f a).
Proof.
  unfold rank. rewrite firstn_app. replace (i + length a - length a) with i by lia.
  rewrite firstn_all2 by lia. rewrite filter_app, app_length. lia.
Qed.

Lemma rank_map (f : row -> bool) (g : row -> row) rs i : rank f (map g rs) i = rank (fun r => f (g r)) rs i.
Proof. unfold rank. rewrite firstn_map, filter_map_comm, map_length. reflexivity. Qed.

Lemma rank_ext f g rs i : (forall r, In r rs -> f r = g r) -> rank f rs i = rank g rs i.
Proof.
  intros H. unfold rank. f_equal. apply filter_ext_in'. intros r Hr. apply H.
  rewrite <- (firstn_skipn i rs). apply in_or_app; auto.
Qed.

Record sum_of (o : oracles) (m1 m2 m : mesh) : Prop := {
  sum_ok : mesh_ok m;
  sum_canon : canonical_points (m_points m);
  sum_keys : forall k, In k (map pt_key (m_points m)) <->
     In k (map (fun p => pt_key (pt_trunc p)) (m_points m1)) \/
     In k (map (fun p => pt_key (pt_trunc p)) (m_points m2));
  sum_points : forall q, In q (m_points m) ->
     exists p, In p (m_points m1 ++ m_points m2) /\ q = pt_trunc p;
  sum_tw : aw (m_triangles m) = 3;
  sum_lines : exists l1 l2, arows (m_lines m) = l1 ++ l2 /\
     Forall2 (fun r r' => same_line (m_points m1) r (m_points m) r') (arows (m_lines m1)) l1 /\
     Forall2 (fun r r' => same_line (m_points m2) r (m_points m) r') (arows (m_lines m2)) l2;
  sum_tris : exists t1 t2, arows (m_triangles m) = t1 ++ t2 /\
     Forall2 (fun r r' => same_triangle (m_points m1) r (m_points m) r')
        (filter (survives o (m_points m1)) (arows (m_triangles m1))) t1 /\
     Forall2 (fun r r' => same_triangle (m_points m2) r (m_points m) r')
        (filter (survives o (m_points m2)) (arows (m_triangles m2))) t2;
  sum_pl : forall name, dget (m_plines m) name =
     both (dget (m_plines m1) name)
          (option_map (map (fun i => i + length (arows (m_lines m1)))) (dget (m_plines m2) name));
  sum_pt : forall name, dget (m_ptriangles m) name =
     both (option_map (kept_positions o m1) (dget (m_ptriangles m1) name))
          (option_map (fun v => map (fun i => i + length (filter (survives o (m_points m1)) (arows (m_triangles m1))))
                                    (kept_positions o m2 v)) (dget (m_ptriangles m2) name))
}.

Lemma mesh_add_total o m1 m2 :
  mesh_ok m1 -> mesh_ok m2 -> compatible (m_lines m1) (m_lines m2) ->
  exists m, mesh_add o m1 m2 = Ok m /\ sum_of o m1 m2 m.
Proof.
  intros K1 K2 Hc. pose proof K1 as [P1 L1 T1 PL1 PT1]. pose proof K2 as [P2 L2 T2 PL2 PT2].
  unfold mesh_add.
  destruct (concat_arr_ok _ _ _ _ _ L1 L2 Hc) as (ls & El & Hls & Erl). rewrite El. cbn [bind].
  assert (Hct : compatible (m_triangles m1) (m_triangles m2)).
  { destruct (arows (m_triangles m1)) eqn:E1; [left; assumption|].
    destruct (arows (m_triangles m2)) eqn:E2; [right; left; assumption|]. right; right.
    destruct (proj1 T1) as [Q1|[]]; [congruence|]. destruct (proj1 T2) as [Q2|[]]; congruence. }
  destruct (concat_arr_ok _ _ _ _ _ T1 T2 Hct) as (ts & Et & Hts & Ert). rewrite Et. cbn [bind].
  set (pl := merge_dicts _ _). set (pt := merge_dicts _ _).
  assert (Hin : input_ok (m_points m1 ++ m_points m2) ls ts pl pt).
  { constructor.
    - apply Forall_app; auto.
    - rewrite app_length; assumption.
    - rewrite app_length; assumption.
    - rewrite Erl, app_length, map_length. apply merge_groups_ok; assumption.
    - rewrite Ert, app_length, map_length. apply merge_groups_ok; assumption. }
  destruct (new_mesh_total o _ _ _ _ _ true Hin) as (m & Em & Hok & B).
  exists m. split; [assumption|]. destruct B.
  assert (HT1 : forall r i, In r (arows (m_triangles m1)) -> In i r -> i < length (m_points m1))
    by (intros r i Hr; apply T1; assumption).
  assert (Ef1 : filter (survives o (m_points m1 ++ m_points m2)) (arows (m_triangles m1)) =
                filter (survives o (m_points m1)) (arows (m_triangles m1))).
  { apply filter_ext_in'. intros r Hr. apply survives_app_l. eauto. }
  assert (Ef2 : filter (survives o (m_points m1 ++ m_points m2))
                  (map (map (fun i => i + length (m_points m1))) (arows (m_triangles m2))) =
                map (map (fun i => i + length (m_points m1)))
                  (filter (survives o (m_points m2)) (arows (m_triangles m2)))).
  { rewrite filter_map_comm. f_equal. apply filter_ext. intros r. apply survives_app_r. }
  constructor; auto.
  - intros k. rewrite b_keys, map_app, in_app_iff. tauto.
  - rewrite Erl in b_lines. apply Forall2_app_l in b_lines.
    destruct b_lines as (l1 & l2 & E & F1 & F2). exists l1, l2. split; [assumption|]. split.
    + eapply Forall2_in_impl; [|exact F1]. intros r r' Hr. apply same_line_app_l. apply L1; assumption.
    + apply Forall2_map_l in F2. eapply Forall2_impl_all; [|exact F2]. intros r r'. apply same_line_app_r.
  - rewrite Ert, filter_app, Ef1, Ef2 in b_tris. apply Forall2_app_l in b_tris.
    destruct b_tris as (l1 & l2 & E & F1 & F2). exists l1, l2. split; [assumption|]. split.
    + eapply Forall2_in_impl; [|exact F1]. intros r r' Hr. apply same_triangle_app_l.
      apply filter_In in Hr. apply T1; tauto.
    + apply Forall2_map_l in F2. eapply Forall2_impl_all; [|exact F2]. intros r r'. apply same_triangle_app_r.
  - intros name. rewrite b_pl. unfold pl.
    rewrite merge_dicts_get by (rewrite ?offset_dict_keys; first [apply PL1|apply PL2]).
    rewrite offset_dict_get. reflexivity.
  - intros name.
    assert (Ept : dget pt name = both (dget (m_ptriangles m1) name)
       (option_map (map (fun i => i + length (arows (m_triangles m1)))) (dget (m_ptriangles m2) name))).
    { unfold pt. rewrite merge_dicts_get by (rewrite ?offset_dict_keys; first [apply PT1|apply PT2]).
      rewrite offset_dict_get. reflexivity. }
    assert (S1 : forall v, (forall i, In i v -> i < length (arows (m_triangles m1))) ->
        map (rank (survives o (m_points m1 ++ m_points m2)) (arows ts))
            (survivors o (m_points m1 ++ m_points m2) (arows ts) v) = kept_positions o m1 v).
    { intros v Hv. unfold kept_positions.
      assert (Esv : survivors o (m_points m1 ++ m_points m2) (arows ts) v =
                    survivors o (m_points m1) (arows (m_triangles m1)) v).
      { unfold survivors. apply filter_ext_in'. intros i Hi. rewrite Ert, nth_error_app1 by auto.
        destruct (nth_error (arows (m_triangles m1)) i) as [r|] eqn:Er; [|reflexivity].
        apply survives_app_l. apply nth_error_In in Er. eauto. }
      rewrite Esv. apply map_ext_in. intros i Hi. unfold survivors in Hi. apply filter_In in Hi.
      destruct Hi as [Hi _]. apply Hv in Hi. rewrite Ert, rank_app_l by lia.
      apply rank_ext. intros r Hr. apply survives_app_l. eauto. }
    assert (S2 : forall v, 
        map (rank (survives o (m_points m1 ++ m_points m2)) (arows ts))
            (survivors o (m_points m1 ++ m_points m2) (arows ts)
               (map (fun i => i + length (arows (m_triangles m1))) v)) =
        map (fun i => i + length (filter (survives o (m_points m1)) (arows (m_triangles m1))))
            (kept_positions o m2 v)).
    { intros v. unfold kept_positions.
      assert (Esv : survivors o (m_points m1 ++ m_points m2) (arows ts)
                      (map (fun i => i + length (arows (m_triangles m1))) v) =
                    map (fun i => i + length (arows (m_triangles m1)))
                        (survivors o (m_points m2) (arows (m_triangles m2)) v)).
      { unfold survivors. rewrite filter_map_comm. f_equal. apply filter_ext. intros i.
        rewrite Ert, nth_error_app2 by lia.
        replace (i + length (arows (m_triangles m1)) - length (arows (m_triangles m1))) with i by lia.
        rewrite nth_error_map.
        change (list nat) with row.
        destruct (nth_error (arows (m_triangles m2)) i); simpl; [|reflexivity].
        apply survives_app_r. }
      rewrite Esv, !map_map. apply map_ext. intros i. rewrite Ert, rank_app_r, Ef1. f_equal.
      rewrite rank_map. apply rank_ext. intros r _. apply survives_app_r. }
    destruct (dget pt name) as [v|] eqn:Ev.
    + destruct (b_pt _ _ Ev) as (v' & Hv' & Ev'). rewrite Hv', Ev'.
      destruct (dget (m_ptriangles m1) name) as [v1|] eqn:E1, (dget (m_ptriangles m2) name) as [v2|] eqn:E2;
        simpl in Ept |- *; try discriminate; injection Ept as ->.
      * unfold survivors. rewrite filter_app, map_app. fold (survivors o (m_points m1 ++ m_points m2) (arows ts) v1).
        rewrite S1 by (apply dget_In in E1; intros; eapply PT1; eauto).
        fold (survivors o (m_points m1 ++ m_points m2) (arows ts)
               (map (fun i => i + length (arows (m_triangles m1))) v2)).
        rewrite S2. reflexivity.
      * rewrite S1 by (apply dget_In in E1; intros; eapply PT1; eauto). reflexivity.
      * rewrite S2. reflexivity.
    + assert (dget (m_ptriangles m) name = None) as ->.
      { apply dget_None. rewrite b_ptkeys. apply dget_None; assumption. }
      destruct (dget (m_ptriangles m1) name), (dget (m_ptriangles m2) name); simpl in *; congruence.
Qed.

(** ** Points of sums *)
Lemma same_keys_same_points ps qs :
  StronglySorted pt_lt ps -> StronglySorted pt_lt qs ->
  (forall k, In k (map pt_key ps) <-> In k (map pt_key qs)) -> same_points ps qs.
Proof.
  intros H1 H2 H.
  assert (E : map pt_key ps = map pt_key qs)
    by (apply strict_sorted_unique; try (apply sorted_map_key; assumption); assumption).
  unfold same_points. clear H1 H2 H. revert qs E.
  induction ps as [|p ps IH]; intros [|q qs] E; simpl in E; try discriminate; constructor.
  - apply pt_eqb_key. congruence.
  - apply IH. congruence.
Qed.

Lemma canonical_keys ps :
  canonical_points ps -> map (fun p => pt_key (pt_trunc p)) ps = map pt_key ps.
Proof.
  intros [_ H]. apply map_ext_in. intros p Hp. rewrite Forall_forall in H. rewrite H by assumption. reflexivity.
Qed.

Lemma sum_points_comm o m1 m2 m m' :
  sum_of o m1 m2 m -> sum_of o m2 m1 m' -> same_points (m_points m) (m_points m').
Proof.
  intros A B. apply same_keys_same_points; [apply A|apply B|].
  intros k. rewrite (sum_keys _ _ _ _ A), (sum_keys _ _ _ _ B). tauto.
Qed.

Lemma sum_points_assoc o a b c ab abc bc abc' :
  sum_of o a b ab -> sum_of o ab c abc -> sum_of o b c bc -> sum_of o a bc abc' ->
  same_points (m_points abc) (m_points abc').
Proof.
  intros A B C D. apply same_keys_same_points; [apply B|apply D|].
  intros k. rewrite (sum_keys _ _ _ _ B), (sum_keys _ _ _ _ D).
  rewrite (canonical_keys _ (sum_canon _ _ _ _ A)), (canonical_keys _ (sum_canon _ _ _ _ C)).
  rewrite (sum_keys _ _ _ _ A), (sum_keys _ _ _ _ C). tauto.
Qed.

Lemma same_place_canonical pts r r' :
  canonical_points pts -> same_place pts r pts r' -> r' = r.
Proof.
  intros [Hs Ht] H. unfold same_place in H. induction H as [|i i' l l' (p & q & A & B & C) H IH]; [reflexivity|].
  f_equal; [|assumption]. rewrite Forall_forall in Ht.
  rewrite (Ht p) in C by (eapply nth_error_In; eauto). apply pt_eqb_key in C.
  eapply (strict_key_inj pts); eauto.
Qed.

Lemma mesh0_ok : mesh_ok empty_mesh.
Proof.
  constructor; simpl; try constructor; simpl; try congruence; try tauto; try constructor; try (intros; contradiction).
Qed.

Lemma add_empty o m :
  mesh_ok m -> canonical_points (m_points m) ->
  (forall r, In r (arows (m_triangles m)) -> survives o (m_points m) r = true) ->
  forall s, sum_of o m empty_mesh s \/ sum_of o empty_mesh m s ->
  m_points s = m_points m /\
  Forall2 (fun r r' => r' = r \/ r' = reversed_line r) (arows (m_lines m)) (arows (m_lines s)) /\
  Forall2 (fun r r' => r' = r \/ r' = reversed_triangle r) (arows (m_triangles m)) (arows (m_triangles s)) /\
  (forall name, dget (m_plines s) name = dget (m_plines m) name) /\
  (forall name, dget (m_ptriangles s) name = dget (m_ptriangles m) name).
Proof.
  intros Hok Hc Hsv s Hs.
  assert (Hpts : m_points s = m_points m).
  { assert (Htr : forall p, In p (m_points m) -> pt_trunc p = p)
      by (destruct Hc as [_ Hc]; rewrite Forall_forall in Hc; exact Hc).
    assert (Hk : forall k, In k (map pt_key (m_points s)) <-> In k (map pt_key (m_points m))).
    { intros k. rewrite <- (canonical_keys _ Hc).
      destruct Hs as [S|S]; rewrite (sum_keys _ _ _ _ S); simpl; tauto. }
    apply canonical_unique; auto.
    - destruct Hs as [S|S]; apply S.
    - intros q Hq.
      assert (exists p, In p (m_points m) /\ q = pt_trunc p) as (p & Hp & ->).
      { destruct Hs as [S|S]; apply (sum_points _ _ _ _ S) in Hq; simpl in Hq;
          [rewrite app_nil_r in Hq|]; assumption. }
      rewrite Htr; assumption.
    - intros k; apply Hk. }
  assert (Hl : Forall2 (fun r r' => same_line (m_points m) r (m_points s) r') (arows (m_lines m)) (arows (m_lines s))).
  { destruct Hs as [S|S]; destruct (sum_lines _ _ _ _ S) as (l1 & l2 & -> & F1 & F2); simpl in *.
    - inversion F2; subst. rewrite app_nil_r; assumption.
    - inversion F1; subst. assumption. }
  assert (Ht : Forall2 (fun r r' => same_triangle (m_points m) r (m_points s) r') (arows (m_triangles m)) (arows (m_triangles s))).
  { rewrite <- (filter_all (survives o (m_points m)) (arows (m_triangles m))) by assumption.
    destruct Hs as [S|S]; destruct (sum_tris _ _ _ _ S) as (l1 & l2 & -> & F1 & F2); simpl in *.
    - inversion F2; subst. rewrite app_nil_r; assumption.
    - inversion F1; subst. assumption. }
  rewrite Hpts in Hl, Ht.
  split; [assumption|]. split; [|split; [|split]].
  - eapply Forall2_impl_all; [|exact Hl].
    intros r r' [H|H]; apply same_place_canonical in H; auto.
  - eapply Forall2_impl_all; [|exact Ht].
    intros r r' [H|H]; apply same_place_canonical in H; auto.
  - intros name. destruct Hs as [S|S]; rewrite (sum_pl _ _ _ _ S); simpl.
    + destruct (dget (m_plines m) name); reflexivity.
    + destruct (dget (m_plines m) name); simpl; [|reflexivity].
      f_equal. rewrite <- (map_id l) at 2. apply map_ext. intros; apply Nat.add_0_r.
  - assert (Hkp : forall name v, dget (m_ptriangles m) name = Some v -> kept_positions o m v = v).
    { intros name v Hv. apply dget_In in Hv.
      assert (Hlt : forall i, In i v -> i < length (arows (m_triangles m)))
        by (intros; eapply (in_pt _ _ _ _ _ Hok); eauto).
      unfold kept_positions, survivors. rewrite filter_all.
      - rewrite <- (map_id v) at 2. apply map_ext_in. intros i Hi. unfold rank.
        rewrite filter_all.
        + apply firstn_length_le. apply Hlt in Hi; lia.
        + intros r Hr. apply Hsv. rewrite <- (firstn_skipn i). apply in_or_app; auto.
      - intros i Hi. destruct (nth_error_total _ _ (Hlt i Hi)) as [r Er]. rewrite Er.
        apply Hsv. eapply nth_error_In; eauto. }
    intros name. destruct Hs as [S|S]; rewrite (sum_pt _ _ _ _ S); simpl.
    + destruct (dget (m_ptriangles m) name) eqn:E; simpl; [|reflexivity]. f_equal; eauto.
    + destruct (dget (m_ptriangles m) name) eqn:E; simpl; [|reflexivity]. f_equal.
      rewrite (Hkp _ _ E). rewrite <- (map_id l) at 2. apply map_ext. intros; apply Nat.add_0_r.
Qed.
