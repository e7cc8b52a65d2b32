(** flip_normals, meshio round trip, removing elements, reading with a name. *)
From Coq Require Import Permutation Relations Sorted.
From Verif Require Import Base Float64 OrientModel MeshModel MeshSpec BaseFacts Float64Facts
  OrientFacts LabelFacts DedupFacts MeshFacts MeshCtor MeshOps MeshExtract.

(** ** Elements outside every group keep their direction *)
Lemma ensure_group_other ens idx all all' k :
  (forall l l', ens l = Ok l' -> length l' = length l) ->
  ensure_group ens idx all = Ok all' -> ~ In k idx -> nth_error all' k = nth_error all k.
Proof.
  intros _ H Hk. unfold ensure_group in H.
  apply bind_ok in H. destruct H as (els & He & H).
  destruct els as [|e els]; [injection H as <-; reflexivity|].
  apply bind_ok in H. destruct H as (pieces & Hp & H).
  apply bind_ok in H. destruct H as (els' & Ho & H).
  eapply np_put_other; eauto.
Qed.

Lemma ensure_normals_other o b m el m' :
  ensure_normals o b m el = Ok m' ->
  (forall k, (forall v, dget (m_plines m) el = Some v -> ~ In k v) ->
     nth_error (arows (m_lines m')) k = nth_error (arows (m_lines m)) k) /\
  (forall k, (forall v, dget (m_ptriangles m) el = Some v -> ~ In k v) ->
     nth_error (arows (m_triangles m')) k = nth_error (arows (m_triangles m)) k).
Proof.
  intros H. unfold ensure_normals in H. apply bind_ok in H. destruct H as (m1 & H1 & H2).
  assert (E1 : m_lines m1 = m_lines m /\ m_plines m1 = m_plines m /\
     forall k, (forall v, dget (m_ptriangles m) el = Some v -> ~ In k v) ->
       nth_error (arows (m_triangles m1)) k = nth_error (arows (m_triangles m)) k).
  { destruct (dget (m_ptriangles m) el) as [idx|].
    - apply bind_ok in H1. destruct H1 as (t & Ht & H1). injection H1 as <-. simpl.
      repeat split. intros k Hk. eapply ensure_group_other; [|exact Ht|apply Hk; reflexivity].
      intros l l' Hl. apply ensure_triangle_orientation_sf in Hl. symmetry. eapply Forall2_length; eauto.
    - injection H1 as <-. repeat split. }
  destruct E1 as (E1 & E2 & E3).
  rewrite E2 in H2. destruct (dget (m_plines m) el) as [idx|].
  - apply bind_ok in H2. destruct H2 as (t & Ht & H2). injection H2 as <-. simpl.
    rewrite E1 in Ht. split; [|exact E3]. intros k Hk.
    eapply ensure_group_other; [|exact Ht|apply Hk; reflexivity].
    intros l l' Hl. apply ensure_line_orientation_sf in Hl. symmetry. eapply Forall2_length; eauto.
  - injection H2 as <-. rewrite E1. split; [reflexivity|exact E3].
Qed.

Lemma ensure_all_other o els : forall m m',
  ensure_all o m els = Ok m' ->
  (forall k, (forall name v, dget (m_plines m) name = Some v -> ~ In k v) ->
     nth_error (arows (m_lines m')) k = nth_error (arows (m_lines m)) k) /\
  (forall k, (forall name v, dget (m_ptriangles m) name = Some v -> ~ In k v) ->
     nth_error (arows (m_triangles m')) k = nth_error (arows (m_triangles m)) k).
Proof.
  induction els as [|el els IH]; intros m m' H; simpl in H.
  - injection H as <-. auto.
  - apply bind_ok in H. destruct H as (m1 & H1 & H).
    pose proof (ensure_normals_flips _ _ _ _ _ H1) as (_ & _ & _ & _ & _ & F6 & F7).
    destruct (ensure_normals_other _ _ _ _ _ H1) as [A B]. destruct (IH _ _ H) as [C D].
    rewrite F6 in C. rewrite F7 in D.
    split; intros k Hk.
    + rewrite C by assumption. apply A. intros v Hv; eapply Hk; eauto.
    + rewrite D by assumption. apply B. intros v Hv; eapply Hk; eauto.
Qed.

(** The constructor with reorientation, compared with the one without. *)
Lemma new_mesh_ensure o points lines triangles pl pt m :
  new_mesh o points lines triangles pl pt true = Ok m ->
  exists m0, pre_mesh o points lines triangles pl pt false = Ok m0 /\
             ensure_all o m0 (get_electrodes m0) = Ok m.
Proof.
  intros H. rewrite new_mesh_pre in H. apply bind_ok in H. destruct H as (m1 & H1 & H).
  apply bind_ok in H. destruct H as (u & _ & H). injection H as <-.
  unfold pre_mesh in *. apply bind_ok in H1. destruct H1 as (a & Ha & H1).
  apply bind_ok in H1. destruct H1 as (b & Hb & H1).
  exists b. rewrite Ha. cbn [bind]. rewrite Hb. auto.
Qed.

Lemma pre_new_mesh o points lines triangles pl pt m :
  input_ok points lines triangles pl pt ->
  pre_mesh o points lines triangles pl pt false = Ok m ->
  new_mesh o points lines triangles pl pt false = Ok m.
Proof.
  intros Hin H. rewrite new_mesh_pre, H. cbn [bind].
  rewrite (mesh_ok_check m); [reflexivity|]. eapply built_ok; eauto. eapply pre_mesh_built; eauto.
Qed.

(** ** flip_normals *)
Lemma flip_rows_line w (rs ls : list row) :
  (w = 2 \/ w = 4) -> Forall (fun r : row => length r = w) rs ->
  mapM (flip_row_line w) rs = Ok ls -> ls = map reversed_line rs.
Proof.
  intros Hw HP H. apply mapM_ok in H.
  induction H as [|r r' rs ls Hr H IH]; [reflexivity|]. apply Forall_cons_iff in HP; destruct HP as [Hl HP'].
  simpl. rewrite <- IH by assumption. f_equal. unfold flip_row_line in Hr.
  destruct Hw as [->| ->]; destruct r as [|a [|b [|c [|d [|e r]]]]]; simpl in *; try lia; try discriminate; congruence.
Qed.
Lemma flip_rows_line_total w (rs : list row) :
  (w = 2 \/ w = 4) -> Forall (fun r : row => length r = w) rs ->
  exists ls, mapM (flip_row_line w) rs = Ok ls.
Proof.
  intros Hw HP. apply mapM_total. intros r Hr. rewrite Forall_forall in HP. apply HP in Hr.
  unfold flip_row_line. destruct Hw as [->| ->]; destruct r as [|a [|b [|c [|d [|e r]]]]]; simpl in *; try lia; eauto.
Qed.
Lemma flip_rows_triangle (rs ls : list row) :
  Forall (fun r : row => length r = 3) rs -> mapM (flip_row_triangle 3) rs = Ok ls -> ls = map reversed_triangle rs.
Proof.
  intros HP H. apply mapM_ok in H.
  induction H as [|r r' rs ls Hr H IH]; [reflexivity|]. apply Forall_cons_iff in HP; destruct HP as [Hl HP'].
  simpl. rewrite <- IH by assumption. f_equal. unfold flip_row_triangle in Hr. simpl in Hr.
  destruct r as [|a [|b [|c [|d r]]]]; simpl in *; try lia; congruence.
Qed.
Lemma flip_rows_triangle_total (rs : list row) :
  Forall (fun r : row => length r = 3) rs -> exists ls, mapM (flip_row_triangle 3) rs = Ok ls.
Proof.
  intros HP. apply mapM_total. intros r Hr. rewrite Forall_forall in HP. apply HP in Hr.
  unfold flip_row_triangle. destruct r as [|a [|b [|c [|d r]]]]; simpl in *; try lia; eauto.
Qed.

(** The area test does not depend on the order of the vertices. *)
Definition area_symmetric (o : oracles) : Prop :=
  forall a b c, o_degenerate o a c b = o_degenerate o a b c.

Lemma survives_reversed o pts r :
  area_symmetric o -> length r = 3 -> survives o pts (reversed_triangle r) = survives o pts r.
Proof.
  intros Hs Hl. destruct r as [|a [|b [|c [|d r]]]]; simpl in *; try lia. unfold survives; simpl.
  destruct (nth_error pts a), (nth_error pts b), (nth_error pts c); try reflexivity.
  rewrite Hs; reflexivity.
Qed.

Lemma flipped_input m :
  mesh_ok m -> aw (m_triangles m) = 3 ->
  input_ok (m_points m) (mkarr (aw (m_lines m)) (map reversed_line (arows (m_lines m))))
    (mkarr (aw (m_triangles m)) (map reversed_triangle (arows (m_triangles m))))
    (m_plines m) (m_ptriangles m).
Proof.
  intros [Kp Kl Kt Kpl Kpt] _. constructor; simpl; rewrite ?map_length; auto.
  - split; simpl.
    + intros H. apply Kl. intros E; rewrite E in H; apply H; reflexivity.
    + intros r' Hr'. apply in_map_iff in Hr'. destruct Hr' as (r & <- & Hr).
      rewrite reversed_line_length. split; [apply Kl; assumption|].
      intros i Hi. rewrite reversed_line_In in Hi. apply Kl in Hr. apply Hr; assumption.
  - split; simpl.
    + intros H. apply Kt. intros E; rewrite E in H; apply H; reflexivity.
    + intros r' Hr'. apply in_map_iff in Hr'. destruct Hr' as (r & <- & Hr).
      rewrite reversed_triangle_length. split; [apply Kt; assumption|].
      intros i Hi. rewrite reversed_triangle_In in Hi. apply Kt in Hr. apply Hr; assumption.
Qed.

Lemma rows_width ws n a : arr_ok ws n a -> Forall (fun r => length r = aw a) (arows a).
Proof. intros [_ H]. apply Forall_forall. intros r Hr. apply H; assumption. Qed.

Lemma flip_normals_ok o m :
  mesh_ok m -> canonical_points (m_points m) -> aw (m_triangles m) = 3 -> area_symmetric o ->
  (forall r, In r (arows (m_triangles m)) -> survives o (m_points m) r = true) ->
  exists m', flip_normals o m = Ok m' /\ mesh_ok m' /\ m_points m' = m_points m /\
    Forall2 line_sf (arows (m_lines m)) (arows (m_lines m')) /\
    Forall2 tri_sf (arows (m_triangles m)) (arows (m_triangles m')) /\
    m_plines m' = m_plines m /\
    (forall name, dget (m_ptriangles m') name = dget (m_ptriangles m) name) /\
    (forall k r, nth_error (arows (m_lines m)) k = Some r ->
       (forall name v, dget (m_plines m) name = Some v -> ~ In k v) ->
       nth_error (arows (m_lines m')) k = Some (reversed_line r)) /\
    (forall k r, nth_error (arows (m_triangles m)) k = Some r ->
       (forall name v, dget (m_ptriangles m) name = Some v -> ~ In k v) ->
       nth_error (arows (m_triangles m')) k = Some (reversed_triangle r)).
Proof.
  intros Hok Hc Hw Ha Hsv. pose proof Hok as [Kp Kl Kt Kpl Kpt].
  unfold flip_normals. rewrite Hw.
  assert (Hl : exists ls, mapM (flip_row_line (aw (m_lines m))) (arows (m_lines m)) = Ok ls /\
                          ls = map reversed_line (arows (m_lines m))).
  { destruct (arows (m_lines m)) as [|r rs] eqn:E; [exists []; auto|]. rewrite <- E in *.
    assert (W : aw (m_lines m) = 2 \/ aw (m_lines m) = 4).
    { destruct (proj1 Kl) as [H|[H|[]]]; [rewrite E; discriminate|auto|auto]. }
    pose proof (rows_width _ _ _ Kl) as HP.
    destruct (flip_rows_line_total _ _ W HP) as [ls Els]. exists ls. split; [assumption|].
    eapply flip_rows_line; eauto. }
  destruct Hl as (ls & -> & ->). cbn [bind].
  assert (HP : Forall (fun r => length r = 3) (arows (m_triangles m)))
    by (rewrite <- Hw; eapply rows_width; eauto).
  destruct (flip_rows_triangle_total _ HP) as [ts Ets]. rewrite Ets. cbn [bind].
  apply flip_rows_triangle in Ets; [|assumption]. subst ts. rewrite <- Hw.
  pose proof (flipped_input m Hok Hw) as Hin.
  assert (Hts : forall r, In r (map reversed_triangle (arows (m_triangles m))) ->
                          survives o (m_points m) r = true).
  { intros r' Hr'. apply in_map_iff in Hr'. destruct Hr' as (r & <- & Hr).
    rewrite survives_reversed; [auto|assumption|]. rewrite Forall_forall in HP; auto. }
  destruct (rebuild_up_to_direction o m _ _ Hok Hc Hsv Hin Hts)
    as (m' & Em & Hok' & Hp' & L & T & Pl & Pt).
  exists m'. split; [assumption|]. split; [assumption|]. split; [assumption|].
  split; [|split; [|split; [assumption|split; [assumption|]]]].
  - apply (proj1 (Forall2_map_l reversed_line line_sf _ _)) in L. eapply Forall2_impl_all; [|exact L]. simpl.
    intros r r' [->| ->]; [right|left; apply reversed_line_inv]; reflexivity.
  - apply (proj1 (Forall2_map_l reversed_triangle tri_sf _ _)) in T. eapply Forall2_impl_all; [|exact T]. simpl.
    intros r r' [->| ->]; [right|left; apply reversed_triangle_inv]; reflexivity.
  - destruct (new_mesh_ensure _ _ _ _ _ _ _ Em) as (m0 & E0 & Een).
    set (fm := mkmesh (m_points m) (mkarr (aw (m_lines m)) (map reversed_line (arows (m_lines m))))
         (mkarr (aw (m_triangles m)) (map reversed_triangle (arows (m_triangles m))))
         (m_plines m) (m_ptriangles m)).
    assert (Efm : m0 = fm).
    { pose proof (rebuild_fixpoint o fm Hin Hc Hw Hts) as Hfix. unfold fm in Hfix at 1 2 3 4 5.
      cbn [m_points m_lines m_triangles m_plines m_ptriangles] in Hfix.
      rewrite (pre_new_mesh _ _ _ _ _ _ _ Hin E0) in Hfix. congruence. }
    subst m0. destruct (ensure_all_other _ _ _ _ Een) as [A B]. split.
    + intros k r Hk Hno. rewrite A by exact Hno. simpl. apply map_nth_error; assumption.
    + intros k r Hk Hno. rewrite B by exact Hno. simpl. apply map_nth_error; assumption.
Qed.

(** ** meshio round trip *)
Lemma new_mesh_no_groups o points lines triangles :
  input_ok points lines triangles [] [] ->
  new_mesh o points lines triangles [] [] true = new_mesh o points lines triangles [] [] false.
Proof.
  intros Hin. destruct (new_mesh_total o _ _ _ _ _ true Hin) as (m & Em & _).
  destruct (new_mesh_ensure _ _ _ _ _ _ _ Em) as (m0 & E0 & Een).
  pose proof (pre_mesh_built _ _ _ _ _ _ _ _ Hin E0) as B. destruct B.
  assert (Eg : get_electrodes m0 = []).
  { unfold get_electrodes. rewrite b_pl, b_ptkeys. reflexivity. }
  rewrite Eg in Een. injection Een as <-. rewrite Em. symmetry. apply pre_new_mesh; assumption.
Qed.

Lemma meshio_roundtrip o m :
  mesh_ok m -> canonical_points (m_points m) -> aw (m_triangles m) = 3 ->
  (forall r, In r (arows (m_triangles m)) -> survives o (m_points m) r = true) ->
  exists m', from_meshio o (to_meshio m) = Ok m' /\
    m_points m' = m_points m /\ arows (m_lines m') = arows (m_lines m) /\
    arows (m_triangles m') = arows (m_triangles m) /\
    m_plines m' = [] /\ m_ptriangles m' = [].
Proof.
  intros Hok Hc Hw Hsv. pose proof Hok as [Kp Kl Kt Kpl Kpt].
  set (ln := match arows (m_lines m) with [] => no_lines | _ => m_lines m end).
  assert (Eln : arows ln = arows (m_lines m)) by (unfold ln; destruct (arows (m_lines m)) eqn:E; auto).
  set (x := mkmesh (m_points m) ln (m_triangles m) [] []).
  assert (Hx : mesh_ok x).
  { constructor; simpl; auto; try apply groups_nil.
    unfold ln. destruct (arows (m_lines m)) eqn:E; [apply arr_nil|assumption]. }
  exists x. split; [|repeat split; assumption].
  assert (Efrom : from_meshio o (to_meshio m) = new_mesh o (m_points m) ln (m_triangles m) [] [] true).
  { unfold from_meshio, to_meshio, mio_extract. cbn [mio_points mio_cells mio_sets flat_map].
    assert (Et : m_triangles m = mkarr 3 (arows (m_triangles m)))
      by (destruct (m_triangles m) as [w r]; simpl in *; congruence).
    rewrite Hw. cbn [Nat.eqb].
    destruct (arows (m_lines m)) as [|r rs] eqn:El; destruct (arows (m_triangles m)) as [|t ts] eqn:Etr;
      simpl; unfold ln; rewrite ?El; cbn iota beta.
    - rewrite Et. reflexivity.
    - rewrite Et. reflexivity.
    - destruct (proj1 Kl) as [W|[W|[]]]; [congruence| |]; rewrite <- W; simpl; rewrite W;
        rewrite Et; (replace (m_lines m) with (mkarr (aw (m_lines m)) (r :: rs))
           by (destruct (m_lines m); simpl in *; congruence)); rewrite <- W; reflexivity.
    - destruct (proj1 Kl) as [W|[W|[]]]; [congruence| |]; rewrite <- W; simpl; rewrite W;
        rewrite Et; (replace (m_lines m) with (mkarr (aw (m_lines m)) (r :: rs))
           by (destruct (m_lines m); simpl in *; congruence)); rewrite <- W; reflexivity. }
  rewrite Efrom. rewrite new_mesh_no_groups by exact Hx.
  apply (rebuild_fixpoint o x Hx Hc Hw Hsv).
Qed.
