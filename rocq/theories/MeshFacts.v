(** The Mesh constructor. *)
From Coq Require Import Permutation Relations Sorted.
From Verif Require Import Base Float64 OrientModel MeshModel MeshSpec BaseFacts Float64Facts
  OrientFacts LabelFacts DedupFacts.

(** ** Flips *)
Definition line_sf (r r' : row) : Prop := r' = r \/ r' = reversed_line r.
Definition tri_sf (r r' : row) : Prop := r' = r \/ r' = reversed_triangle r.

Lemma reversed_line_inv r : reversed_line (reversed_line r) = r.
Proof. destruct r as [|a [|b [|c [|d [|e r]]]]]; reflexivity. Qed.
Lemma reversed_triangle_inv r : reversed_triangle (reversed_triangle r) = r.
Proof. destruct r as [|a [|b [|c [|d r]]]]; reflexivity. Qed.

Lemma line_sf_refl r : line_sf r r. Proof. left; reflexivity. Qed.
Lemma tri_sf_refl r : tri_sf r r. Proof. left; reflexivity. Qed.
Lemma line_sf_trans a b c : line_sf a b -> line_sf b c -> line_sf a c.
Proof. intros [->| ->] [->| ->]; unfold line_sf; rewrite ?reversed_line_inv; auto. Qed.
Lemma tri_sf_trans a b c : tri_sf a b -> tri_sf b c -> tri_sf a c.
Proof. intros [->| ->] [->| ->]; unfold tri_sf; rewrite ?reversed_triangle_inv; auto. Qed.

Lemma flip_line_ok r r' : flip_line r = Ok r' -> r' = reversed_line r.
Proof.
  destruct r as [|a [|b [|c [|d [|e r]]]]]; simpl; intros H; try discriminate; congruence.
Qed.
Lemma flip_triangle_ok r r' : flip_triangle r = Ok r' -> r' = reversed_triangle r.
Proof. destruct r as [|a [|b [|c [|d r]]]]; simpl; intros H; try discriminate; congruence. Qed.

Lemma flip_line_total r : length r = 2 \/ length r = 4 -> flip_line r = Ok (reversed_line r).
Proof. destruct r as [|a [|b [|c [|d [|e r]]]]]; simpl; intros H; try lia; reflexivity. Qed.
Lemma flip_triangle_total r : length r = 3 -> flip_triangle r = Ok (reversed_triangle r).
Proof. destruct r as [|a [|b [|c [|d r]]]]; simpl; intros H; try lia; reflexivity. Qed.

Lemma reversed_line_length r : length (reversed_line r) = length r.
Proof. destruct r as [|a [|b [|c [|d [|e r]]]]]; reflexivity. Qed.
Lemma reversed_triangle_length r : length (reversed_triangle r) = length r.
Proof. destruct r as [|a [|b [|c [|d r]]]]; reflexivity. Qed.

Lemma reversed_line_In r i : In i (reversed_line r) <-> In i r.
Proof. destruct r as [|a [|b [|c [|d [|e r]]]]]; simpl; tauto. Qed.
Lemma reversed_triangle_In r i : In i (reversed_triangle r) <-> In i r.
Proof. destruct r as [|a [|b [|c [|d r]]]]; simpl; tauto. Qed.

Lemma line_sf_length r r' : line_sf r r' -> length r' = length r.
Proof. intros [->| ->]; [reflexivity|apply reversed_line_length]. Qed.
Lemma tri_sf_length r r' : tri_sf r r' -> length r' = length r.
Proof. intros [->| ->]; [reflexivity|apply reversed_triangle_length]. Qed.
Lemma line_sf_In r r' i : line_sf r r' -> (In i r' <-> In i r).
Proof. intros [->| ->]; [tauto|apply reversed_line_In]. Qed.
Lemma tri_sf_In r r' i : tri_sf r r' -> (In i r' <-> In i r).
Proof. intros [->| ->]; [tauto|apply reversed_triangle_In]. Qed.

(** ** Orienting a list of elements only flips them *)
Lemma reorient_lines_sf els els' : reorient_lines els = Ok els' -> Forall2 line_sf els els'.
Proof.
  unfold reorient_lines. intros H. inv_bind H.
  eapply (reorient_loop_rel line_test flip_line line_sf line_sf_refl line_sf_trans); eauto.
  - intros x y Hxy; right; apply flip_line_ok; assumption.
  - apply Forall2_refl_all, line_sf_refl.
Qed.

Lemma reorient_triangles_sf o pts els els' :
  reorient_triangles o pts els = Ok els' -> Forall2 tri_sf els els'.
Proof.
  unfold reorient_triangles. intros H. destruct els as [|e els]; [injection H as <-; constructor|].
  eapply (reorient_loop_rel (triangle_test o pts) flip_triangle tri_sf tri_sf_refl tri_sf_trans); eauto.
  - intros x y Hxy; right; apply flip_triangle_ok; assumption.
  - apply Forall2_refl_all, tri_sf_refl.
Qed.

Lemma ensure_line_orientation_sf o pts b els els' :
  ensure_line_orientation o pts b els = Ok els' -> Forall2 line_sf els els'.
Proof.
  unfold ensure_line_orientation. intros H. inv_bind H. apply reorient_lines_sf in Hb.
  destruct (Bool.eqb _ _); [injection H as <-; assumption|].
  apply mapM_ok in H. eapply Forall2_trans_all; [apply line_sf_trans|exact Hb|].
  eapply Forall2_impl_all; [|exact H]. intros x y Hxy; right; apply flip_line_ok; assumption.
Qed.

Lemma ensure_triangle_orientation_sf o pts b els els' :
  ensure_triangle_orientation o pts b els = Ok els' -> Forall2 tri_sf els els'.
Proof.
  unfold ensure_triangle_orientation. intros H. inv_bind H. apply reorient_triangles_sf in Hb.
  destruct (Bool.eqb _ _); [injection H as <-; assumption|].
  apply mapM_ok in H. eapply Forall2_trans_all; [apply tri_sf_trans|exact Hb|].
  eapply Forall2_impl_all; [|exact H]. intros x y Hxy; right; apply flip_triangle_ok; assumption.
Qed.

Section Group.
  Variable R : row -> row -> Prop.
  Hypothesis R_refl : forall r, R r r.
  Hypothesis R_trans : forall a b c, R a b -> R b c -> R a c.
  Variable ens : list row -> result (list row).
  Hypothesis ens_rel : forall l l', ens l = Ok l' -> Forall2 R l l'.

  Lemma take_put_rel els idx part part' els' :
    np_take els idx = Ok part -> Forall2 R part part' -> np_put els idx part' = Ok els' ->
    Forall2 R els els'.
  Proof.
    intros Ht Hr Hp. eapply np_put_rel; [exact Hp|apply Forall2_refl_all, R_refl|].
    apply np_take_ok in Ht.
    eapply Forall2_trans_all; [|exact Ht|exact Hr]. simpl. intros i a b Hi Hab c Hc. congruence.
  Qed.

  Lemma orient_pieces_rel pieces : forall els els',
    orient_pieces ens pieces els = Ok els' -> Forall2 R els els'.
  Proof.
    induction pieces as [|idx pieces IH]; intros els els' H; simpl in H.
    - injection H as <-. apply Forall2_refl_all, R_refl.
    - inv_bind H. inv_bind H. inv_bind H.
      eapply Forall2_trans_all; [exact R_trans| |apply IH, H].
      eapply take_put_rel; eauto.
  Qed.

  Lemma ensure_group_rel idx all all' :
    ensure_group ens idx all = Ok all' -> Forall2 R all all'.
  Proof.
    unfold ensure_group. intros H. inv_bind H.
    destruct a as [|e els]; [injection H as <-; apply Forall2_refl_all, R_refl|].
    inv_bind H. inv_bind H. eapply take_put_rel; eauto. eapply orient_pieces_rel; eauto.
  Qed.

  Variable P : row -> Prop.
  Hypothesis ens_total : forall l, l <> [] -> Forall P l -> exists l', ens l = Ok l'.
  Hypothesis R_P : forall a b, R a b -> P a -> P b.

  Lemma Forall_rel l l' : Forall2 R l l' -> Forall P l -> Forall P l'.
  Proof.
    induction 1 as [|a b l l' Hab H IH]; intros HP; constructor; inversion HP; subst; eauto.
  Qed.

  Lemma np_take_Forall els idx part : np_take els idx = Ok part -> Forall P els -> Forall P part.
  Proof.
    intros H HP. apply np_take_ok in H. rewrite Forall_forall in *. intros r Hr.
    apply In_nth_error in Hr. destruct Hr as [k Hk].
    destruct (Forall2_nth_r _ _ _ _ _ H Hk) as (i & _ & Hi). apply HP. eapply nth_error_In; eauto.
  Qed.

  Lemma orient_pieces_total pieces : forall els,
    Forall P els -> Forall (fun p => p <> []) pieces ->
    (forall i, In i (concat pieces) -> i < length els) ->
    exists els', orient_pieces ens pieces els = Ok els'.
  Proof.
    induction pieces as [|idx pieces IH]; intros els HP Hne Hlt; simpl; [eauto|].
    inversion Hne as [|? ? Hne1 Hne2]; subst.
    assert (Hi : forall i, In i idx -> i < length els)
      by (intros; apply Hlt; simpl; apply in_or_app; auto).
    destruct (np_take_total els idx Hi) as [part Ep]. rewrite Ep. cbn [bind].
    destruct (ens_total part) as [part' Ep'].
    { intros ->. apply np_take_length in Ep. destruct idx; [congruence|discriminate]. }
    { eapply np_take_Forall; eauto. }
    rewrite Ep'. cbn [bind].
    destruct (np_put_total idx els part') as [els1 E1]; auto.
    { rewrite <- (Forall2_length _ _ _ (ens_rel _ _ Ep')). apply np_take_length in Ep; assumption. }
    rewrite E1. cbn [bind].
    pose proof (take_put_rel _ _ _ _ _ Ep (ens_rel _ _ Ep') E1) as Hr.
    apply IH; auto.
    - eapply Forall_rel; eauto.
    - intros i Hin. rewrite <- (Forall2_length _ _ _ Hr). apply Hlt. simpl. apply in_or_app; auto.
  Qed.

  Lemma ensure_group_total idx all :
    Forall P all -> (forall i, In i idx -> i < length all) ->
    exists all', ensure_group ens idx all = Ok all'.
  Proof.
    intros HP Hi. unfold ensure_group.
    destruct (np_take_total all idx Hi) as [els Ee]. rewrite Ee. cbn [bind].
    destruct els as [|e els0] eqn:Eels; [eauto|]. rewrite <- Eels in *.
    destruct (connected_elements_partition els) as (pieces & Ep & Hperm & Hne & _).
    rewrite Ep. cbn [bind].
    destruct (orient_pieces_total pieces els) as [els' Eo]; auto.
    { eapply np_take_Forall; eauto. }
    { intros i Hin. eapply Permutation_in in Hin; [|exact Hperm]. apply in_seq in Hin; lia. }
    rewrite Eo. cbn [bind]. apply np_put_total; auto.
    pose proof (orient_pieces_rel _ _ _ Eo) as Hr. rewrite <- (Forall2_length _ _ _ Hr).
    apply np_take_length in Ee; assumption.
  Qed.
End Group.

(** ** Totality of the orientation of lines and triangles *)
Lemma unor_repeat_false n : unor (repeat false n) = n.
Proof. induction n as [|n IH]; unfold unor, count_true in *; simpl in *; lia. Qed.

Lemma all_width_Forall w els : all_width w els = true <-> Forall (fun r => length r = w) els.
Proof.
  unfold all_width. rewrite forallb_forall, Forall_forall.
  split; intros H r Hr; apply Nat.eqb_eq; auto.
Qed.

Lemma reorient_lines_total w els :
  w = 2 \/ w = 4 -> els <> [] -> Forall (fun r => length r = w) els ->
  exists els', reorient_lines els = Ok els'.
Proof.
  intros Hw Hne HP. unfold reorient_lines.
  assert (Ha : all_width 2 els || all_width 4 els = true).
  { apply orb_true_iff. destruct Hw as [->| ->]; [left|right]; apply all_width_Forall; assumption. }
  rewrite Ha. cbn [py_assert bind].
  eapply (reorient_loop_total _ _ (fun r => length r = w)); eauto.
  - intros a b Ha' Hb'. unfold line_test, line_orientation_equal.
    destruct Hw as [->| ->]; destruct a as [|a0 [|a1 a]]; simpl in Ha'; try lia;
      destruct b as [|b0 [|b1 b]]; simpl in Hb'; try lia; simpl;
      destruct (a1 =? b0); simpl; eauto; destruct (b1 =? a0); simpl; eauto.
  - intros a Ha'. exists (reversed_line a). split; [apply flip_line_total; lia|].
    rewrite reversed_line_length; assumption.
  - rewrite map_length; reflexivity.
  - apply repeat_length.
  - intros i [<-|[]]. destruct els; [congruence|simpl; lia].
  - rewrite unor_repeat_false. simpl. lia.
Qed.

Lemma reorient_triangles_total o pts els :
  Forall (fun r => length r = 3) els -> exists els', reorient_triangles o pts els = Ok els'.
Proof.
  intros HP. unfold reorient_triangles. destruct els as [|e els0] eqn:E; [eauto|]. rewrite <- E in *.
  eapply (reorient_loop_total _ _ (fun r => length r = 3)); eauto.
  - intros a b _ _. unfold triangle_test. destruct (_ =? -1)%Z; [eauto|]. destruct (_ =? 0)%Z; eauto.
  - intros a Ha'. exists (reversed_triangle a). split; [apply flip_triangle_total; lia|].
    rewrite reversed_triangle_length; assumption.
  - apply repeat_length.
  - intros i [<-|[]]. rewrite E; simpl; lia.
  - rewrite unor_repeat_false. simpl. lia.
Qed.

Lemma ensure_line_orientation_total o pts b w els :
  w = 2 \/ w = 4 -> els <> [] -> Forall (fun r => length r = w) els ->
  exists els', ensure_line_orientation o pts b els = Ok els'.
Proof.
  intros Hw Hne HP. unfold ensure_line_orientation.
  destruct (reorient_lines_total w els Hw Hne HP) as [e1 E1]. rewrite E1. cbn [bind].
  destruct (Bool.eqb _ _); [eauto|].
  apply mapM_total. intros r Hr. exists (reversed_line r). apply flip_line_total.
  apply reorient_lines_sf in E1. apply In_nth_error in Hr. destruct Hr as [k Hk].
  destruct (Forall2_nth_r _ _ _ _ _ E1 Hk) as (r0 & Hr0 & Hsf). apply line_sf_length in Hsf.
  rewrite Forall_forall in HP. apply nth_error_In in Hr0. apply HP in Hr0. lia.
Qed.

Lemma ensure_triangle_orientation_total o pts b els :
  Forall (fun r => length r = 3) els ->
  exists els', ensure_triangle_orientation o pts b els = Ok els'.
Proof.
  intros HP. unfold ensure_triangle_orientation.
  destruct (reorient_triangles_total o pts els HP) as [e1 E1]. rewrite E1. cbn [bind].
  destruct (Bool.eqb _ _); [eauto|].
  apply mapM_total. intros r Hr. exists (reversed_triangle r). apply flip_triangle_total.
  apply reorient_triangles_sf in E1. apply In_nth_error in Hr. destruct Hr as [k Hk].
  destruct (Forall2_nth_r _ _ _ _ _ E1 Hk) as (r0 & Hr0 & Hsf). apply tri_sf_length in Hsf.
  rewrite Forall_forall in HP. apply nth_error_In in Hr0. apply HP in Hr0. lia.
Qed.

(** ** ensure_normals, ensure_all *)
Definition upto_flips (m m' : mesh) : Prop :=
  m_points m' = m_points m /\ aw (m_lines m') = aw (m_lines m) /\
  aw (m_triangles m') = aw (m_triangles m) /\
  Forall2 line_sf (arows (m_lines m)) (arows (m_lines m')) /\
  Forall2 tri_sf (arows (m_triangles m)) (arows (m_triangles m')) /\
  m_plines m' = m_plines m /\ m_ptriangles m' = m_ptriangles m.

Lemma upto_flips_refl m : upto_flips m m.
Proof.
  repeat split; apply Forall2_refl_all; [apply line_sf_refl|apply tri_sf_refl].
Qed.

Lemma upto_flips_trans a b c : upto_flips a b -> upto_flips b c -> upto_flips a c.
Proof.
  intros (A1 & A2 & A3 & A4 & A5 & A6 & A7) (B1 & B2 & B3 & B4 & B5 & B6 & B7).
  repeat split; try congruence.
  - eapply Forall2_trans_all; [apply line_sf_trans|eauto|eauto].
  - eapply Forall2_trans_all; [apply tri_sf_trans|eauto|eauto].
Qed.

Lemma ensure_normals_flips o b m el m' : ensure_normals o b m el = Ok m' -> upto_flips m m'.
Proof.
  unfold ensure_normals. intros H. apply bind_ok in H. destruct H as (m1 & H1 & H2).
  apply (upto_flips_trans _ m1).
  - destruct (dget (m_ptriangles m) el); [|injection H1 as <-; apply upto_flips_refl].
    inv_bind H1. injection H1 as <-.
    repeat split; simpl; try (apply Forall2_refl_all; apply line_sf_refl).
    eapply (ensure_group_rel tri_sf); eauto using tri_sf_refl, tri_sf_trans.
    intros; eapply ensure_triangle_orientation_sf; eauto.
  - destruct (dget (m_plines m1) el); [|injection H2 as <-; apply upto_flips_refl].
    inv_bind H2. injection H2 as <-.
    repeat split; simpl; try (apply Forall2_refl_all; apply tri_sf_refl).
    eapply (ensure_group_rel line_sf); eauto using line_sf_refl, line_sf_trans.
    intros; eapply ensure_line_orientation_sf; eauto.
Qed.

Lemma ensure_all_flips o els : forall m m', ensure_all o m els = Ok m' -> upto_flips m m'.
Proof.
  induction els as [|el els IH]; intros m m' H; simpl in H.
  - injection H as <-; apply upto_flips_refl.
  - inv_bind H. eapply upto_flips_trans; [eapply ensure_normals_flips; eauto|eauto].
Qed.

Lemma dget_In {A} (d : list (string * A)) k v : dget d k = Some v -> In (k, v) d.
Proof.
  induction d as [|[k' v'] d IH]; simpl; [discriminate|].
  destruct (String.eqb_spec k' k) as [->|]; [intros H; injection H as ->; auto|auto].
Qed.

Lemma In_dget {A} (d : list (string * A)) k v : NoDup (dkeys d) -> In (k, v) d -> dget d k = Some v.
Proof.
  induction d as [|[k' v'] d IH]; simpl; [tauto|]. intros Hnd [H|H].
  - injection H as -> ->. rewrite String.eqb_refl; reflexivity.
  - apply NoDup_cons_iff in Hnd. destruct Hnd as [Hk Hnd].
    destruct (String.eqb_spec k' k) as [->|]; [|auto].
    exfalso. apply Hk. unfold dkeys. apply in_map_iff. exists (k, v); auto.
Qed.

(** Conditions under which orientation does not raise. *)
Definition orientable_ok (m : mesh) : Prop :=
  (exists w, (w = 2 \/ w = 4) /\ Forall (fun r => length r = w) (arows (m_lines m))) /\
  Forall (fun r => length r = 3) (arows (m_triangles m)) /\
  (forall name v i, In (name, v) (m_plines m) -> In i v -> i < length (arows (m_lines m))) /\
  (forall name v i, In (name, v) (m_ptriangles m) -> In i v -> i < length (arows (m_triangles m))).

Lemma orientable_ok_flips m m' : upto_flips m m' -> orientable_ok m -> orientable_ok m'.
Proof.
  intros (A1 & A2 & A3 & A4 & A5 & A6 & A7) ((w & Hw & HP) & HT & Hl & Ht).
  repeat split.
  - exists w; split; [assumption|]. eapply (Forall_rel line_sf); [|exact A4|exact HP].
    intros a b Hab Ha. apply line_sf_length in Hab; lia.
  - eapply (Forall_rel tri_sf); [|exact A5|exact HT].
    intros a b Hab Ha. apply tri_sf_length in Hab; lia.
  - rewrite A6. intros name v i H1 H2. rewrite <- (Forall2_length _ _ _ A4). eauto.
  - rewrite A7. intros name v i H1 H2. rewrite <- (Forall2_length _ _ _ A5). eauto.
Qed.

Lemma ensure_normals_total o b m el :
  orientable_ok m -> exists m', ensure_normals o b m el = Ok m'.
Proof.
  intros ((w & Hw & HP) & HT & Hl & Ht). unfold ensure_normals.
  assert (H1 : exists m1, match dget (m_ptriangles m) el with
        | None => Ok m
        | Some idx =>
            t <- ensure_group (ensure_triangle_orientation o (m_points m) b)
                   idx (arows (m_triangles m)) ;;
            Ok {| m_points := m_points m; m_lines := m_lines m;
                  m_triangles := mkarr (aw (m_triangles m)) t;
                  m_plines := m_plines m; m_ptriangles := m_ptriangles m |}
        end = Ok m1 /\ m_lines m1 = m_lines m /\ m_plines m1 = m_plines m /\ m_points m1 = m_points m).
  { destruct (dget (m_ptriangles m) el) as [idx|] eqn:E; [|eauto].
    apply dget_In in E.
    destruct (ensure_group_total tri_sf tri_sf_refl tri_sf_trans
                (ensure_triangle_orientation o (m_points m) b)
                (ensure_triangle_orientation_sf o (m_points m) b)
                (fun r => length r = 3)) with (idx := idx) (all := arows (m_triangles m)) as [t Et]; auto.
    - intros l _ Hl3. apply ensure_triangle_orientation_total; assumption.
    - intros x y Hxy Hx. apply tri_sf_length in Hxy; lia.
    - intros i Hi; eauto.
    - rewrite Et. cbn [bind]. eauto. }
  destruct H1 as (m1 & -> & Hml & Hmp & Hpp). cbn [bind]. rewrite Hml, Hmp.
  destruct (dget (m_plines m) el) as [idx|] eqn:E; [|eauto].
  apply dget_In in E.
  destruct (ensure_group_total line_sf line_sf_refl line_sf_trans
              (ensure_line_orientation o (m_points m1) b)
              (ensure_line_orientation_sf o (m_points m1) b)
              (fun r => length r = w)) with (idx := idx) (all := arows (m_lines m)) as [t Et]; auto.
  - intros l Hne Hlw. eapply ensure_line_orientation_total; eauto.
  - intros x y Hxy Hx. apply line_sf_length in Hxy; lia.
  - intros i Hi; eauto.
  - rewrite Et. cbn [bind]. eauto.
Qed.

Lemma ensure_all_total o els : forall m, orientable_ok m -> exists m', ensure_all o m els = Ok m'.
Proof.
  induction els as [|el els IH]; intros m H; simpl; [eauto|].
  destruct (ensure_normals_total o true m el H) as [m1 E1]. rewrite E1. cbn [bind].
  apply IH. eapply orientable_ok_flips; [|exact H]. eapply ensure_normals_flips; eauto.
Qed.

(** ** Degenerate triangles *)
Lemma mask_filter {A} (f : A -> bool) l : mask l (map f l) = filter f l.
Proof. induction l as [|a l IH]; simpl; [reflexivity|]. rewrite IH; destruct (f a); reflexivity. Qed.

Lemma degenerate_flags_ok o pts tris deg :
  degenerate_flags o pts tris = Ok deg ->
  deg = map (fun r => negb (survives o pts r)) tris.
Proof.
  unfold degenerate_flags. intros H. inv_bind H. apply mapM_ok in Hb. apply mapM_ok in H.
  revert deg H; induction Hb as [|r c tris cs Hr Hb IH]; intros deg H; inversion H as [|? d ? deg' Hd Hds]; subst;
    simpl; [reflexivity|].
  rewrite (IH _ Hds). f_equal.
  unfold survives. apply np_take_ok in Hr.
  assert (E : map (nth_error pts) (firstn 3 r) = map Some c).
  { clear -Hr. induction Hr as [|i a l l' Hi Hr IH]; simpl; [reflexivity|]. rewrite Hi, IH; reflexivity. }
  rewrite E. destruct c as [|x [|y [|z [|w c]]]]; try discriminate. simpl.
  injection Hd as <-. rewrite negb_involutive; reflexivity.
Qed.

Lemma degenerate_flags_total o pts tris :
  (forall r, In r tris -> length r = 3 /\ forall i, In i r -> i < length pts) ->
  exists deg, degenerate_flags o pts tris = Ok deg.
Proof.
  intros H. unfold degenerate_flags.
  destruct (mapM_total (fun r => np_take pts (firstn 3 r)) tris) as [cs Ecs].
  { intros r Hr. apply np_take_total. intros i Hi. destruct (H r Hr) as [_ Hlt].
    apply Hlt. rewrite <- (firstn_skipn 3 r). apply in_or_app; auto. }
  rewrite Ecs. cbn [bind]. apply mapM_total. intros c Hc.
  apply mapM_ok in Ecs. apply In_nth_error in Hc. destruct Hc as [k Hk].
  destruct (Forall2_nth_r _ _ _ _ _ Ecs Hk) as (r & Hr & Ht). apply nth_error_In in Hr.
  apply np_take_length in Ht. destruct (H r Hr) as [Hlen _]. rewrite firstn_length, Hlen in Ht.
  simpl in Ht. destruct c as [|x [|y [|z [|w c]]]]; simpl in Ht; try lia. eauto.
Qed.

Lemma degenerate_map_nth deg i :
  nth_error deg i = Some false ->
  nth_error (degenerate_map deg) i = Some (count_true (firstn i (map negb deg))).
Proof.
  intros H. unfold degenerate_map.
  assert (Hi : i < length deg) by (eapply nth_error_lt; eauto).
  rewrite (map2_nth _ _ _ _ i (count_true (firstn (S i) deg))).
  - rewrite (count_true_firstn_S _ _ _ H). simpl. f_equal.
    rewrite firstn_map. pose proof (count_true_negb (firstn i deg)) as Hc.
    rewrite firstn_length_le in Hc by lia. lia.
  - apply arange_nth; assumption.
  - apply cumsum_nth; assumption.
Qed.

(** The new index list of a group: survivors, renumbered by the number of survivors before. *)
Lemma remap_group_ok deg v v' :
  remap_group deg v = Ok v' ->
  Forall2 (fun i i' => nth_error deg i = Some false /\ i' = count_true (firstn i (map negb deg)))
    (filter (fun i => match nth_error deg i with Some d => negb d | None => false end) v) v'.
Proof.
  unfold remap_group. intros H. inv_bind H. apply np_take_ok in Hb. apply np_take_ok in H.
  revert v' H; induction Hb as [|i d v ds Hd Hb IH]; intros v' H; simpl in H.
  - inversion H; subst; constructor.
  - simpl. rewrite Hd. destruct d; simpl in *; [apply IH; assumption|].
    inversion H as [|? i' ? v'' Hi' Hv']; subst. constructor; [|apply IH; assumption].
    split; [assumption|]. rewrite (degenerate_map_nth _ _ Hd) in Hi'. congruence.
Qed.

Lemma remap_group_total deg v :
  (forall i, In i v -> i < length deg) -> exists v', remap_group deg v = Ok v'.
Proof.
  intros H. unfold remap_group.
  destruct (np_take_total deg v H) as [d Ed]. rewrite Ed. cbn [bind].
  apply np_take_total. intros i Hi. apply mask_In in Hi.
  unfold degenerate_map. rewrite map2_length, arange_length, cumsum_length.
  rewrite Nat.min_id; auto.
Qed.

Lemma mapM_dict_ok {A B} (f : A -> result B) d d' :
  mapM_dict f d = Ok d' <-> Forall2 (fun x y => fst y = fst x /\ f (snd x) = Ok (snd y)) d d'.
Proof.
  revert d'; induction d as [|[k v] d IH]; intros d'; simpl; split; intros H.
  - injection H as <-; constructor.
  - inversion H; reflexivity.
  - inv_bind H. inv_bind H. injection H as <-. constructor; [auto|]. apply IH; assumption.
  - inversion H as [|? [k' v'] ? ? [Hk Hv] Hd]; subst; simpl in *. subst k'. rewrite Hv. cbn [bind].
    apply IH in Hd. rewrite Hd. reflexivity.
Qed.

Lemma mapM_dict_total {A B} (f : A -> result B) d :
  (forall k v, In (k, v) d -> exists v', f v = Ok v') -> exists d', mapM_dict f d = Ok d'.
Proof.
  induction d as [|[k v] d IH]; intros H; simpl; [eauto|].
  destruct (H k v (or_introl eq_refl)) as [v' Ev]. rewrite Ev. cbn [bind].
  destruct IH as [d' Ed]; [intros; eapply H; right; eauto|]. rewrite Ed. cbn [bind]. eauto.
Qed.

Lemma mapM_dict_keys {A B} (f : A -> result B) d d' : mapM_dict f d = Ok d' -> dkeys d' = dkeys d.
Proof.
  intros H. apply mapM_dict_ok in H. unfold dkeys.
  induction H as [|x y d d' [Hk _] H IH]; simpl; congruence.
Qed.

Lemma mapM_dict_get {A B} (f : A -> result B) d d' k v :
  mapM_dict f d = Ok d' -> dget d k = Some v -> exists v', dget d' k = Some v' /\ f v = Ok v'.
Proof.
  intros H. apply mapM_dict_ok in H.
  induction H as [|[k1 v1] [k2 v2] d d' [Hk Hv] H IH]; simpl; [discriminate|]. simpl in Hk, Hv. subst k2.
  destruct (String.eqb k1 k); [|exact IH]. intros E; injection E as ->. eauto.
Qed.
