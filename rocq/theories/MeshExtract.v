(** extract_physical_group, flip_normals, meshio, read. *)
From Coq Require Import Permutation Relations Sorted.
From Verif Require Import Base Float64 OrientModel MeshModel MeshSpec BaseFacts Float64Facts
  OrientFacts LabelFacts DedupFacts MeshFacts MeshCtor MeshOps.

(** Vertex by vertex the very same point. *)
Definition exact_place (pts : list point) (r : row) (pts' : list point) (r' : row) : Prop :=
  Forall2 (fun i i' => exists p, nth_error pts i = Some p /\ nth_error pts' i' = Some p) r r'.

Lemma points_mask_nth n e i : i < n -> nth_error (points_mask n e) i = Some (existsb (memb i) e).
Proof. intros H. unfold points_mask. rewrite nth_error_map, arange_nth by assumption. reflexivity. Qed.

Lemma existsb_memb i e : existsb (memb i) e = true <-> exists r, In r e /\ In i r.
Proof.
  rewrite existsb_exists. split; intros (r & H1 & H2); exists r; split; auto; apply memb_In; assumption.
Qed.

Lemma extract_elements_ok (pts : list point) (els : list row) idx :
  (forall i, In i idx -> i < length els) ->
  (forall r i, In r els -> In i r -> i < length pts) ->
  exists (pts' : list point) (e e' : list row),
    np_take els (np_unique idx) = Ok e /\
    extract_elements pts els idx = Ok (pts', e') /\
    Forall2 (fun r r' => exact_place pts r pts' r') e e' /\
    (forall q, In q pts' -> exists r i, In r e /\ In i r /\ nth_error pts i = Some q).
Proof.
  intros Hi Hr. unfold extract_elements.
  destruct (np_take_total els (np_unique idx)) as [e Ee].
  { intros i H. apply Hi, np_unique_In; assumption. }
  rewrite Ee. cbn [bind].
  assert (He : forall r i, In r e -> In i r -> i < length pts).
  { intros r i H. apply np_take_ok in Ee. apply In_nth_error in H. destruct H as [k Hk].
    destruct (Forall2_nth_r _ _ _ _ _ Ee Hk) as (j & _ & Hj). apply Hr. eapply nth_error_In; eauto. }
  assert (Hlt : forallb (all_lt (length pts)) e = true).
  { apply forallb_forall. intros r H. apply forallb_forall. intros i H'. apply Nat.ltb_lt; eauto. }
  match goal with |- context [if ?c then _ else _] => replace c with true by (symmetry; exact Hlt) end.
  set (pm := points_mask (length pts) e).
  assert (Hpm : forall r i, In r e -> In i r -> nth_error pm i = Some true).
  { intros r i H H'. unfold pm. rewrite points_mask_nth by eauto. f_equal. apply existsb_memb; eauto. }
  assert (Hpl : length pm = length pts) by (unfold pm, points_mask; rewrite map_length, arange_length; reflexivity).
  destruct (mapM_total (np_take (map (fun k => k - 1) (cumsum pm))) e) as [e' Ee'].
  { intros r H. apply np_take_total. intros i H'. rewrite map_length, cumsum_length, Hpl. eauto. }
  rewrite Ee'. cbn [bind]. exists (mask pts pm), e, e'.
  split; [reflexivity|]. split; [reflexivity|]. split.
  - apply mapM_ok in Ee'. eapply Forall2_in_impl; [|exact Ee']. intros r r' Hin Htk.
    apply np_take_ok in Htk. unfold exact_place.
    eapply Forall2_in_impl; [|exact Htk]. intros i i' Hii Hc. cbn beta in Hc.
    pose proof (Hpm r i Hin Hii) as Hm. rewrite (cumsum_kept _ _ Hm) in Hc. injection Hc as <-.
    destruct (nth_error_total pts i) as [p Hp]; [eauto|]. exists p. split; [assumption|].
    apply mask_nth; assumption.
  - intros q Hq. apply mask_In_iff in Hq. destruct Hq as (i & H1 & H2).
    unfold pm in H2. rewrite points_mask_nth in H2 by (eapply nth_error_lt; eauto).
    injection H2 as H2. apply existsb_memb in H2. destruct H2 as (r & H2 & H3). eauto 6.
Qed.

Lemma exact_then_same pts r pts1 r1 pts2 r2 :
  exact_place pts r pts1 r1 -> same_place pts1 r1 pts2 r2 -> same_place pts r pts2 r2.
Proof.
  unfold exact_place, same_place. intros H1 H2.
  eapply Forall2_trans_all; [|exact H1|exact H2]. simpl.
  intros i j k (p & A & B) (p1 & p2 & C & D & E). assert (p1 = p) by congruence; subst. eauto.
Qed.
Lemma exact_reversed_line pts r pts1 r1 :
  exact_place pts r pts1 r1 -> exact_place pts (reversed_line r) pts1 (reversed_line r1).
Proof.
  unfold exact_place. intros H.
  inversion H as [|a a' l l' Ha H1]; subst; [constructor|].
  inversion H1 as [|b b' l1 l1' Hb H2]; subst; [constructor; auto|].
  inversion H2 as [|c c' l2 l2' Hc H3]; subst; [repeat constructor; auto|].
  inversion H3 as [|d d' l3 l3' Hd H4]; subst; [repeat constructor; auto|].
  inversion H4; subst; simpl; repeat constructor; auto.
Qed.
Lemma exact_reversed_triangle pts r pts1 r1 :
  exact_place pts r pts1 r1 -> exact_place pts (reversed_triangle r) pts1 (reversed_triangle r1).
Proof.
  unfold exact_place. intros H.
  inversion H as [|a a' l l' Ha H1]; subst; [constructor|].
  inversion H1 as [|b b' l1 l1' Hb H2]; subst; [constructor; auto|].
  inversion H2 as [|c c' l2 l2' Hc H3]; subst; [repeat constructor; auto|].
  inversion H3; subst; simpl; repeat constructor; auto.
Qed.
Lemma exact_survives o pts r pts1 r1 :
  exact_place pts r pts1 r1 -> survives o pts1 r1 = survives o pts r.
Proof.
  intros H. unfold survives.
  assert (E : map (nth_error pts1) (firstn 3 r1) = map (nth_error pts) (firstn 3 r)); [|rewrite E; reflexivity].
  unfold exact_place in H. generalize 3 as n. induction H as [|i i' l l' (p & A & B) H IH]; intros [|n]; simpl; auto.
  rewrite A, B, IH. reflexivity.
Qed.
Lemma exact_length pts r pts1 r1 : exact_place pts r pts1 r1 -> length r1 = length r.
Proof. intros H; symmetry; eapply Forall2_length; eauto. Qed.
Lemma exact_lt pts r pts1 r1 i : exact_place pts r pts1 r1 -> In i r1 -> i < length pts1.
Proof.
  intros H Hi. induction H as [|a a' l l' (p & _ & Hp) H IH]; [contradiction|].
  destruct Hi as [<-|Hi]; [eapply nth_error_lt; eauto|auto].
Qed.

Lemma Forall2_filter {A B} (R : A -> B -> Prop) f g l m :
  (forall a b, R a b -> g b = f a) -> Forall2 R l m -> Forall2 R (filter f l) (filter g m).
Proof.
  intros Hfg H. induction H as [|a b l m Hab H IH]; simpl; [constructor|].
  rewrite (Hfg _ _ Hab). destruct (f a); [constructor; assumption|assumption].
Qed.

Lemma ranks_all (f : row -> bool) rs :
  map (rank f rs) (filter (fun i => match nth_error rs i with Some r => f r | None => false end)
                          (arange (length rs))) = arange (length (filter f rs)).
Proof.
  induction rs as [|r rs IH] using rev_ind; [reflexivity|].
  rewrite app_length. simpl (length [r]). unfold arange in *. rewrite Nat.add_1_r, seq_S. simpl plus.
  rewrite !filter_app, map_app, app_length.
  assert (E1 : filter (fun i => match nth_error (rs ++ [r]) i with Some r0 => f r0 | None => false end)
                 (seq 0 (length rs)) =
               filter (fun i => match nth_error rs i with Some r0 => f r0 | None => false end)
                 (seq 0 (length rs))).
  { apply filter_ext_in'. intros i Hi. apply in_seq in Hi. rewrite nth_error_app1 by lia. reflexivity. }
  rewrite E1.
  assert (E2 : map (rank f (rs ++ [r])) (filter (fun i => match nth_error rs i with Some r0 => f r0 | None => false end)
                 (seq 0 (length rs))) = seq 0 (length (filter f rs))).
  { rewrite <- IH. apply map_ext_in. intros i Hi. apply filter_In in Hi. destruct Hi as [Hi _].
    apply in_seq in Hi. apply rank_app_l; lia. }
  rewrite E2. simpl. rewrite nth_error_app2, Nat.sub_diag by lia. simpl.
  destruct (f r); simpl; [|rewrite app_nil_r, Nat.add_0_r; reflexivity].
  rewrite Nat.add_1_r, seq_S. f_equal. simpl. f_equal.
  unfold rank. rewrite firstn_app, Nat.sub_diag, firstn_all. simpl. rewrite app_nil_r. reflexivity.
Qed.

Lemma np_unique_spec l : StronglySorted lt (np_unique l) /\ forall i, In i (np_unique l) <-> In i l.
Proof. split; [apply np_unique_sorted|intros; apply np_unique_In]. Qed.

Lemma groups_one n name : groups_ok n [(name, arange n)].
Proof.
  split; [repeat constructor; simpl; tauto|].
  intros name' v i [H|[]] Hi. injection H as <- <-. apply arange_In; assumption.
Qed.
Lemma groups_nil n : groups_ok n [].
Proof. split; [constructor|intros ? ? ? []]. Qed.
Lemma arr_nil ws w n : arr_ok ws n (mkarr w []).
Proof. split; simpl; [congruence|tauto]. Qed.

Lemma extract_lines o m name v :
  mesh_ok m -> dget (m_plines m) name = Some v ->
  exists m' idx,
    extract_physical_group o m name = Ok m' /\ mesh_ok m' /\
    StronglySorted lt idx /\ (forall i, In i idx <-> In i v) /\
    Forall2 (fun i r' => exists r, nth_error (arows (m_lines m)) i = Some r /\
                                   same_line (m_points m) r (m_points m') r')
            idx (arows (m_lines m')) /\
    arows (m_triangles m') = [] /\
    m_plines m' = [(name, arange (length idx))] /\ m_ptriangles m' = [] /\
    (forall q, In q (m_points m') -> exists i r k p,
        In i v /\ nth_error (arows (m_lines m)) i = Some r /\ In k r /\
        nth_error (m_points m) k = Some p /\ q = pt_trunc p).
Proof.
  intros Hok Hv. pose proof Hok as [Kp Kl Kt Kpl Kpt].
  assert (Hlt : forall i, In i v -> i < length (arows (m_lines m)))
    by (apply dget_In in Hv; intros; eapply Kpl; eauto).
  destruct (extract_elements_ok (m_points m) (arows (m_lines m)) v) as (pts' & e & e' & Ee & Ex & Hpl & Hpts);
    auto.
  { intros r i Hr. apply Kl; assumption. }
  unfold extract_physical_group. rewrite Hv, Ex. cbn [bind].
  assert (Hin : input_ok pts' (mkarr (aw (m_lines m)) e') no_triangles [(name, arange (length e'))] []).
  { constructor.
    - apply Forall_forall. intros q Hq. apply Hpts in Hq. destruct Hq as (r & i & _ & _ & Hq).
      rewrite Forall_forall in Kp. apply Kp. eapply nth_error_In; eauto.
    - split; cbn [arows aw].
      + intros H. apply Kl. intros E. rewrite E in Ee. destruct e' as [|r' e']; [congruence|].
        inversion Hpl as [|r ? e0 ? ? ?]; subst. apply np_take_ok in Ee.
        inversion Ee as [|i ? ? ? Hi ?]; subst. destruct i; discriminate.
      + intros r' Hr'. apply In_nth_error in Hr'. destruct Hr' as [k Hk].
        destruct (Forall2_nth_r _ _ _ _ _ Hpl Hk) as (r & Hr & Hs).
        split; [|intros i; eapply exact_lt; eauto].
        rewrite (exact_length _ _ _ _ Hs). apply np_take_ok in Ee.
        destruct (Forall2_nth_r _ _ _ _ _ Ee Hr) as (j & _ & Hj). apply Kl. eapply nth_error_In; eauto.
    - apply arr_nil.
    - apply groups_one.
    - apply groups_nil. }
  destruct (new_mesh_total o _ _ _ _ _ true Hin) as (m' & Em & Hok' & B).
  exists m', (np_unique v). split; [assumption|]. split; [assumption|].
  destruct (np_unique_spec v) as [U1 U2]. split; [assumption|]. split; [assumption|].
  pose proof (np_take_length _ _ _ Ee) as Hlen.
  apply np_take_ok in Ee. destruct B. cbn [arows] in b_lines.
  split; [|split; [|split; [|split]]].
  - eapply Forall2_trans_all; [|exact Ee|].
    2:{ eapply Forall2_trans_all; [|exact Hpl|exact b_lines].
        intros r r1 r2 H1 H2. cbn beta in H1, H2.
        assert (same_line (m_points m) r (m_points m') r2) as H3; [|exact H3].
        destruct H2 as [H2|H2]; [left|right]; eapply exact_then_same; eauto using exact_reversed_line. }
    cbn beta. intros i r r' H1 H2. eauto.
  - simpl in b_tris. inversion b_tris; reflexivity.
  - rewrite b_pl. rewrite <- (Forall2_length _ _ _ Hpl), Hlen. reflexivity.
  - destruct (m_ptriangles m'); [reflexivity|discriminate].
  - intros q Hq. apply b_points in Hq. destruct Hq as (p & Hp & ->).
    apply Hpts in Hp. destruct Hp as (r & k & Hr & Hk & Hp).
    apply In_nth_error in Hr. destruct Hr as [j Hj].
    destruct (Forall2_nth_r _ _ _ _ _ Ee Hj) as (i & Hi & Hir).
    exists i, r, k, p. repeat split; auto. apply U2. eapply nth_error_In; eauto.
Qed.

Lemma extract_triangles o m name v :
  mesh_ok m -> dget (m_plines m) name = None -> dget (m_ptriangles m) name = Some v ->
  exists m' idx,
    extract_physical_group o m name = Ok m' /\ mesh_ok m' /\
    StronglySorted lt idx /\ (forall i, In i idx <-> In i v) /\
    Forall2 (fun i r' => exists r, nth_error (arows (m_triangles m)) i = Some r /\
                                   same_triangle (m_points m) r (m_points m') r')
            (survivors o (m_points m) (arows (m_triangles m)) idx) (arows (m_triangles m')) /\
    arows (m_lines m') = [] /\ m_plines m' = [] /\
    dkeys (m_ptriangles m') = [name] /\
    dget (m_ptriangles m') name = Some (arange (length (arows (m_triangles m')))) /\
    (forall q, In q (m_points m') -> exists i r k p,
        In i v /\ nth_error (arows (m_triangles m)) i = Some r /\ In k r /\
        nth_error (m_points m) k = Some p /\ q = pt_trunc p).
Proof.
  intros Hok Hv0 Hv. pose proof Hok as [Kp Kl Kt Kpl Kpt].
  assert (Hlt : forall i, In i v -> i < length (arows (m_triangles m)))
    by (apply dget_In in Hv; intros; eapply Kpt; eauto).
  destruct (extract_elements_ok (m_points m) (arows (m_triangles m)) v) as (pts' & e & e' & Ee & Ex & Hpl & Hpts);
    auto.
  { intros r i Hr. apply Kt; assumption. }
  unfold extract_physical_group. rewrite Hv0, Hv, Ex. cbn [bind].
  assert (Hin : input_ok pts' no_lines (mkarr (aw (m_triangles m)) e') [] [(name, arange (length e'))]).
  { constructor.
    - apply Forall_forall. intros q Hq. apply Hpts in Hq. destruct Hq as (r & i & _ & _ & Hq).
      rewrite Forall_forall in Kp. apply Kp. eapply nth_error_In; eauto.
    - apply arr_nil.
    - split; cbn [arows aw].
      + intros H. apply Kt. intros E. rewrite E in Ee. destruct e' as [|r' e']; [congruence|].
        inversion Hpl as [|r ? e0 ? ? ?]; subst. apply np_take_ok in Ee.
        inversion Ee as [|i ? ? ? Hi ?]; subst. destruct i; discriminate.
      + intros r' Hr'. apply In_nth_error in Hr'. destruct Hr' as [k Hk].
        destruct (Forall2_nth_r _ _ _ _ _ Hpl Hk) as (r & Hr & Hs).
        split; [|intros i; eapply exact_lt; eauto].
        rewrite (exact_length _ _ _ _ Hs). apply np_take_ok in Ee.
        destruct (Forall2_nth_r _ _ _ _ _ Ee Hr) as (j & _ & Hj). apply Kt. eapply nth_error_In; eauto.
    - apply groups_nil.
    - apply groups_one. }
  destruct (new_mesh_total o _ _ _ _ _ true Hin) as (m' & Em & Hok' & B).
  exists m', (np_unique v). split; [assumption|]. split; [assumption|].
  destruct (np_unique_spec v) as [U1 U2]. split; [assumption|]. split; [assumption|].
  apply np_take_ok in Ee. destruct B. cbn [arows] in b_tris, b_pt.
  split; [|split; [|split; [|split; [|split]]]].
  - assert (Hf : Forall2 (fun i r => nth_error (arows (m_triangles m)) i = Some r)
              (survivors o (m_points m) (arows (m_triangles m)) (np_unique v))
              (filter (survives o (m_points m)) e)).
    { unfold survivors. apply Forall2_filter; [|exact Ee]. intros i r Hi. rewrite Hi. reflexivity. }
    assert (Hf2 : Forall2 (fun r r' => exact_place (m_points m) r pts' r')
              (filter (survives o (m_points m)) e) (filter (survives o pts') e')).
    { apply Forall2_filter; [|exact Hpl]. intros r r' H. apply exact_survives; assumption. }
    eapply Forall2_trans_all; [|exact Hf|].
    2:{ eapply Forall2_trans_all; [|exact Hf2|exact b_tris].
        intros r r1 r2 H1 H2. cbn beta in H1, H2.
        assert (same_triangle (m_points m) r (m_points m') r2) as H3; [|exact H3].
        destruct H2 as [H2|H2]; [left|right]; eapply exact_then_same; eauto using exact_reversed_triangle. }
    cbn beta. intros i r r' H1 H2. eauto.
  - simpl in b_lines. inversion b_lines; reflexivity.
  - assumption.
  - rewrite b_ptkeys. reflexivity.
  - destruct (b_pt name (arange (length e'))) as (v' & Hv' & Ev').
    { simpl. rewrite String.eqb_refl. reflexivity. }
    rewrite Hv', Ev'. f_equal. unfold survivors. rewrite ranks_all. f_equal.
    eapply Forall2_length; eauto.
  - intros q Hq. apply b_points in Hq. destruct Hq as (p & Hp & ->).
    apply Hpts in Hp. destruct Hp as (r & k & Hr & Hk & Hp).
    apply In_nth_error in Hr. destruct Hr as [j Hj].
    destruct (Forall2_nth_r _ _ _ _ _ Ee Hj) as (i & Hi & Hir).
    exists i, r, k, p. repeat split; auto. apply U2. eapply nth_error_In; eauto.
Qed.

Lemma extract_unknown o m name :
  ~ In name (get_electrodes m) -> extract_physical_group o m name = Err AssertionError.
Proof.
  intros H. unfold get_electrodes in H. rewrite in_app_iff in H.
  unfold extract_physical_group.
  rewrite (proj2 (dget_None (m_plines m) name)) by tauto.
  rewrite (proj2 (dget_None (m_ptriangles m) name)) by tauto. reflexivity.
Qed.

(** ** Rebuilding from the arrays of a constructed mesh: up to direction *)
Lemma rebuild_up_to_direction o m ls ts :
  mesh_ok m -> canonical_points (m_points m) ->
  (forall r, In r (arows (m_triangles m)) -> survives o (m_points m) r = true) ->
  input_ok (m_points m) (mkarr (aw (m_lines m)) ls) (mkarr (aw (m_triangles m)) ts)
    (m_plines m) (m_ptriangles m) ->
  (forall r, In r ts -> survives o (m_points m) r = true) ->
  exists m', new_mesh o (m_points m) (mkarr (aw (m_lines m)) ls) (mkarr (aw (m_triangles m)) ts)
                (m_plines m) (m_ptriangles m) true = Ok m' /\ mesh_ok m' /\
    m_points m' = m_points m /\
    Forall2 line_sf ls (arows (m_lines m')) /\
    Forall2 tri_sf ts (arows (m_triangles m')) /\
    m_plines m' = m_plines m /\
    (forall name, dget (m_ptriangles m') name = dget (m_ptriangles m) name).
Proof.
  intros Hok Hc Hsv Hin Hts.
  destruct (new_mesh_total o _ _ _ _ _ true Hin) as (m' & Em & Hok' & B).
  exists m'. split; [assumption|]. split; [assumption|]. destruct B. cbn [arows] in *.
  assert (Htr : forall p, In p (m_points m) -> pt_trunc p = p)
    by (destruct Hc as [_ Hc]; rewrite Forall_forall in Hc; exact Hc).
  assert (Hpts : m_points m' = m_points m).
  { apply canonical_unique; auto.
    - intros q Hq. apply b_points in Hq. destruct Hq as (p & Hp & ->). rewrite Htr; assumption.
    - intros k Hk. apply b_keys. rewrite canonical_keys; assumption. }
  rewrite Hpts in *. split; [reflexivity|].
  rewrite filter_all in b_tris by assumption.
  split; [|split; [|split]].
  - eapply Forall2_impl_all; [|exact b_lines].
    intros r r' [H|H]; apply same_place_canonical in H; auto; unfold line_sf; auto.
  - eapply Forall2_impl_all; [|exact b_tris].
    intros r r' [H|H]; apply same_place_canonical in H; auto; unfold tri_sf; auto.
  - assumption.
  - intros name. destruct (dget (m_ptriangles m) name) as [v|] eqn:E.
    + destruct (b_pt _ _ E) as (v' & -> & ->). f_equal.
      assert (Hlt : forall i, In i v -> i < length ts).
      { apply dget_In in E. intros i Hi. eapply (in_pt _ _ _ _ _ Hin); eauto. }
      unfold survivors. rewrite filter_all.
      * rewrite <- (map_id v) at 2. apply map_ext_in. intros i Hi. unfold rank.
        rewrite filter_all.
        -- apply firstn_length_le. apply Hlt in Hi; lia.
        -- intros r Hr. apply Hts. rewrite <- (firstn_skipn i). apply in_or_app; auto.
      * intros i Hi. destruct (nth_error_total _ _ (Hlt i Hi)) as [r Er]. rewrite Er.
        apply Hts. eapply nth_error_In; eauto.
    + apply dget_None. rewrite b_ptkeys. apply dget_None; assumption.
Qed.
