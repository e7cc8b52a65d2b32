(** Corollaries in the form in which the properties are stated (Props_Mesh.v). *)
From Coq Require Import Permutation Relations Sorted.
From Verif Require Import Base Float64 OrientModel MeshModel MeshSpec BaseFacts Float64Facts
  OrientFacts LabelFacts DedupFacts MeshFacts MeshCtor MeshOps MeshExtract OrientConsist MeshMisc
  MeshExamples.

(** ** Truncation of a coordinate *)
Lemma trunc_value b : f64_bits b -> f64_trunc b = (65536 * (b / 65536))%Z.
Proof.
  intros H. rewrite f64_trunc_sub by assumption.
  pose proof (Z.div_mod b 65536 ltac:(lia)). lia.
Qed.

(** ** Order of points *)
Lemma key_eq_eqb p q : pt_key p = pt_key q <-> pt_eqb p q = true.
Proof.
  unfold pt_key, pt_eqb, f64_eqb. rewrite !andb_true_iff, !Z.eqb_eq. split.
  - intros H. injection H. intros. repeat split; assumption.
  - intros [[-> ->] ->]. reflexivity.
Qed.

Lemma pt_lt_before p q : pt_lt p q <-> before_zyx p q.
Proof.
  unfold pt_lt, before_zyx, key_lt, pt_key, f64_ltb, f64_eqb.
  rewrite !Z.ltb_lt, !Z.eqb_eq. tauto.
Qed.

Lemma sorted_nth (l : list point) : StronglySorted pt_lt l ->
  forall i j p q, i < j -> nth_error l i = Some p -> nth_error l j = Some q -> pt_lt p q.
Proof.
  induction 1 as [|a l Hs IH Ha]; intros i j p q Hij Hp Hq; [destruct i; discriminate|].
  destruct j as [|j]; [lia|]. destruct i as [|i]; simpl in *.
  - injection Hp as <-. rewrite Forall_forall in Ha. apply Ha. eapply nth_error_In; eauto.
  - eapply (IH i j); eauto; lia.
Qed.

Lemma points_sorted o points lines triangles pl pt ens m :
  input_ok points lines triangles pl pt ->
  new_mesh o points lines triangles pl pt ens = Ok m ->
  (forall i j p q, i < j -> nth_error (m_points m) i = Some p -> nth_error (m_points m) j = Some q ->
     before_zyx p q /\ pt_eqb p q = false) /\
  (forall p, In p points -> exists q, In q (m_points m) /\ pt_eqb q (pt_trunc p) = true) /\
  (forall q, In q (m_points m) -> exists p, In p points /\ q = pt_trunc p).
Proof.
  intros Hin Em. destruct (new_mesh_built _ _ _ _ _ _ _ _ Hin Em) as [[Hs _] Hk Hp _ _ _ _ _ _ _ _].
  split; [|split; [|assumption]].
  - intros i j p q Hij Hi Hj. pose proof (sorted_nth _ Hs i j p q Hij Hi Hj) as Hlt.
    split; [apply pt_lt_before; assumption|]. destruct (pt_eqb p q) eqn:E; [|reflexivity]. exfalso.
    apply key_eq_eqb in E. unfold pt_lt in Hlt. rewrite E in Hlt. unfold key_lt in Hlt.
    destruct (pt_key q) as [[a b] c]. lia.
  - intros p Hpin. assert (In (pt_key (pt_trunc p)) (map pt_key (m_points m))) as H.
    { apply Hk. apply in_map_iff. exists p; auto. }
    apply in_map_iff in H. destruct H as (q & Hq & Hqi). exists q. split; [assumption|].
    apply key_eq_eqb; assumption.
Qed.

(** The points depend only on the set of rounded input points. *)
Lemma points_determined o1 o2 ps1 l1 t1 pl1 pt1 e1 m1 ps2 l2 t2 pl2 pt2 e2 m2 :
  input_ok ps1 l1 t1 pl1 pt1 -> input_ok ps2 l2 t2 pl2 pt2 ->
  (forall p, In p ps1 -> exists q, In q ps2 /\ pt_eqb (pt_trunc p) (pt_trunc q) = true) ->
  (forall q, In q ps2 -> exists p, In p ps1 /\ pt_eqb (pt_trunc p) (pt_trunc q) = true) ->
  new_mesh o1 ps1 l1 t1 pl1 pt1 e1 = Ok m1 -> new_mesh o2 ps2 l2 t2 pl2 pt2 e2 = Ok m2 ->
  same_points (m_points m1) (m_points m2).
Proof.
  intros I1 I2 H12 H21 E1 E2.
  destruct (new_mesh_built _ _ _ _ _ _ _ _ I1 E1) as [[S1 _] K1 _ _ _ _ _ _ _ _ _].
  destruct (new_mesh_built _ _ _ _ _ _ _ _ I2 E2) as [[S2 _] K2 _ _ _ _ _ _ _ _ _].
  apply same_keys_same_points; [assumption|assumption|].
  intros k. rewrite K1, K2, !in_map_iff. split.
  - intros (p & <- & Hp). destruct (H12 _ Hp) as (q & Hq & E). exists q. split; [|assumption].
    symmetry. apply key_eq_eqb; assumption.
  - intros (q & <- & Hq). destruct (H21 _ Hq) as (p & Hp & E). exists p. split; [|assumption].
    apply key_eq_eqb; assumption.
Qed.

(** ** Groups *)
Lemma groups_survive o points lines triangles pl pt ens m :
  input_ok points lines triangles pl pt ->
  new_mesh o points lines triangles pl pt ens = Ok m ->
  m_plines m = pl /\ dkeys (m_ptriangles m) = dkeys pt /\
  forall name v, dget pt name = Some v ->
    exists v', dget (m_ptriangles m) name = Some v' /\
      Forall2 (fun i i' => exists r r', nth_error (arows triangles) i = Some r /\
                 nth_error (arows (m_triangles m)) i' = Some r' /\
                 survives o points r = true /\
                 i' = rank (survives o points) (arows triangles) i /\
                 same_triangle points r (m_points m) r')
        (survivors o points (arows triangles) v) v'.
Proof.
  intros Hin Em. destruct (new_mesh_built _ _ _ _ _ _ _ _ Hin Em) as [_ _ _ _ _ _ Ht _ Hpl Hk Hpt].
  split; [assumption|]. split; [assumption|].
  intros name v Hv. destruct (Hpt _ _ Hv) as (v' & Hv' & ->). eexists; split; [exact Hv'|].
  apply (proj2 (Forall2_map_r _ _ _ _)).
  assert (Hgen : forall i, In i (survivors o points (arows triangles) v) ->
     exists r r', nth_error (arows triangles) i = Some r /\
       nth_error (arows (m_triangles m)) (rank (survives o points) (arows triangles) i) = Some r' /\
       survives o points r = true /\
       rank (survives o points) (arows triangles) i = rank (survives o points) (arows triangles) i /\
       same_triangle points r (m_points m) r').
  { intros i Hi. unfold survivors in Hi. apply filter_In in Hi. destruct Hi as [_ Hi].
    destruct (nth_error (arows triangles) i) as [r|] eqn:Er; [|discriminate].
    assert (Ef : nth_error (filter (survives o points) (arows triangles))
                   (rank (survives o points) (arows triangles) i) = Some r).
    { apply filter_nth; assumption. }
    destruct (Forall2_nth_l _ _ _ _ _ Ht Ef) as (r' & Er' & Hr').
    exists r, r'. auto. }
  clear Hv'. induction (survivors o points (arows triangles) v) as [|i l IH]; constructor.
  - apply Hgen. left; reflexivity.
  - apply IH. intros; apply Hgen; right; assumption.
Qed.

(** ** Sums *)
Lemma mesh_add_sum o m1 m2 m :
  mesh_ok m1 -> mesh_ok m2 -> mesh_add o m1 m2 = Ok m -> sum_of o m1 m2 m.
Proof.
  intros K1 K2 E.
  assert (Hc : compatible (m_lines m1) (m_lines m2)).
  { unfold mesh_add in E. apply bind_ok in E. destruct E as (l & El & _).
    unfold concat_arr in El. unfold compatible, offset_rows in *. simpl in El.
    destruct (arows (m_lines m1)) as [|a la]; [auto|].
    destruct (arows (m_lines m2)) as [|b lb]; [auto|]. simpl in El.
    right; right. destruct (aw (m_lines m1) =? aw (m_lines m2)) eqn:E; [apply Nat.eqb_eq; assumption|].
    discriminate. }
  destruct (mesh_add_total o m1 m2 K1 K2 Hc) as (m' & E' & Hs). congruence.
Qed.

Lemma add_incompatible o m1 m2 :
  ~ compatible (m_lines m1) (m_lines m2) -> mesh_add o m1 m2 = Err AssertionError.
Proof.
  intros Hn. unfold mesh_add, concat_arr, compatible, offset_rows in *. simpl.
  destruct (arows (m_lines m1)) as [|a la]; [exfalso; auto|].
  destruct (arows (m_lines m2)) as [|b lb]; [exfalso; auto|]. simpl.
  destruct (Nat.eqb_spec (aw (m_lines m1)) (aw (m_lines m2))); [exfalso; auto|]. reflexivity.
Qed.

(** ** flip_normals of a named line: the constructor turns it back *)
Definition one_line (name : string) (a b : nat) : mesh :=
  mkmesh [(f0, f0, f0); (f1, f0, f0)] (mkarr 2 [[a; b]]) no_triangles [(name, [0])] [].

Lemma one_line_new o name a b :
  (a = 0 /\ b = 1) \/ (a = 1 /\ b = 0) ->
  new_mesh o (m_points (one_line name a b)) (m_lines (one_line name a b)) no_triangles
    [(name, [0])] [] true =
  Ok (one_line name (if Bool.eqb (o_line_outwards o [(f0, f0, f0); (f1, f0, f0)] [[b; a]]) true then b else a)
                    (if Bool.eqb (o_line_outwards o [(f0, f0, f0); (f1, f0, f0)] [[b; a]]) true then a else b)).
Proof.
  intros [[-> ->]|[-> ->]]; unfold one_line, new_mesh, remove_degenerate, deduplicate, ensure_all, ensure_normals;
    simpl; rewrite String.eqb_refl; vm_compute; destruct o as [od ot oo ol oj];
  match goal with |- context [ol ?p ?q] => destruct (ol p q) end; reflexivity.
Qed.

Lemma flip_named_noop o name :
  (forall pts, o_line_outwards o pts [[1; 0]] = negb (o_line_outwards o pts [[0; 1]])) ->
  exists m, mesh_ok m /\ m_plines m = [(name, [0])] /\
    new_mesh o (m_points m) (m_lines m) (m_triangles m) (m_plines m) (m_ptriangles m) true = Ok m /\
    (exists r, In r (arows (m_lines m)) /\ reversed_line r <> r) /\
    flip_normals o m = Ok m.
Proof.
  intros Hodd. pose (pts := [(f0, f0, f0); (f1, f0, f0)]).
  assert (Hok : forall a b, (a = 0 /\ b = 1) \/ (a = 1 /\ b = 0) -> mesh_ok (one_line name a b)).
  { intros a b H. unfold mesh_ok, one_line; simpl. apply input_okb_ok.
    destruct H as [[-> ->]|[-> ->]]; vm_compute; reflexivity. }
  specialize (Hodd pts).
  destruct (o_line_outwards o pts [[0; 1]]) eqn:E; simpl in Hodd.
  - exists (one_line name 0 1). split; [apply Hok; auto|]. split; [reflexivity|].
    split; [|split; [exists [0; 1]; split; [left; reflexivity|discriminate]|]].
    + change (m_triangles (one_line name 0 1)) with no_triangles.
      change (m_plines (one_line name 0 1)) with [(name, [0])].
      change (m_ptriangles (one_line name 0 1)) with (@nil (string * list nat)).
      rewrite one_line_new by auto. fold pts. rewrite Hodd. reflexivity.
    + unfold flip_normals, one_line. simpl.
      change (new_mesh o (m_points (one_line name 1 0)) (m_lines (one_line name 1 0)) no_triangles
                [(name, [0])] [] true = Ok (one_line name 0 1)).
      rewrite one_line_new by auto. fold pts. rewrite E. reflexivity.
  - exists (one_line name 1 0). split; [apply Hok; auto|]. split; [reflexivity|].
    split; [|split; [exists [1; 0]; split; [left; reflexivity|discriminate]|]].
    + change (m_triangles (one_line name 1 0)) with no_triangles.
      change (m_plines (one_line name 1 0)) with [(name, [0])].
      change (m_ptriangles (one_line name 1 0)) with (@nil (string * list nat)).
      rewrite one_line_new by auto. fold pts. rewrite E. reflexivity.
    + unfold flip_normals, one_line. simpl.
      change (new_mesh o (m_points (one_line name 0 1)) (m_lines (one_line name 0 1)) no_triangles
                [(name, [0])] [] true = Ok (one_line name 1 0)).
      rewrite one_line_new by auto. fold pts. rewrite Hodd. reflexivity.
Qed.

(** ** A group is lost by meshio export *)
Lemma meshio_loses_groups o :
  exists m, mesh_ok m /\ dget (m_plines m) "electrode"%string = Some [0] /\
    exists m', from_meshio o (to_meshio m) = Ok m' /\ get_electrodes m' = [].
Proof.
  pose (m := one_line "electrode" 0 1). exists m.
  assert (Hok : mesh_ok m) by (apply input_okb_ok; vm_compute; reflexivity).
  split; [assumption|]. split; [reflexivity|].
  destruct (meshio_roundtrip o m Hok) as (m' & E & _ & _ & _ & P & T).
  - split; [|repeat constructor].
    constructor; [constructor; constructor|constructor; [|constructor]].
    vm_compute. right. split; [reflexivity|]. right. split; reflexivity.
  - reflexivity.
  - intros r [].
  - exists m'. split; [assumption|]. unfold get_electrodes. rewrite P, T. reflexivity.
Qed.

(** ** Named triangles with six points cannot be constructed *)
Lemma triangle6_raises o name :
  (forall pts r, o_tri_equal o pts r r = 0%Z) ->
  (forall a b c, o_degenerate o a b c = false) ->
  let pts := [(f0,f0,f0);(f1,f0,f0);(f0,f1,f0);(f1,f1,f0);(f0,f0,f1);(f1,f0,f1)] in
  new_mesh o pts no_lines (mkarr 6 [[0;1;2;3;4;5]]) [] [(name, [0])] true = Err ValueError /\
  exists m, new_mesh o pts no_lines (mkarr 6 [[0;1;2;3;4;5]]) [] [(name, [0])] false = Ok m.
Proof.
  intros Hs Hd pts.
  assert (H1 : forall ens, new_mesh o pts no_lines (mkarr 6 [[0;1;2;3;4;5]]) [] [(name, [0])] ens =
     (m3 <- (if ens then ensure_all o (mkmesh pts no_lines (mkarr 6 [[0;1;2;3;4;5]]) [] [(name, [0])]) [name]
             else Ok (mkmesh pts no_lines (mkarr 6 [[0;1;2;3;4;5]]) [] [(name, [0])])) ;;
      _ <- py_assert (check_mesh m3) ;; Ok m3)).
  { intros ens. unfold new_mesh, remove_degenerate, degenerate_flags. simpl. rewrite Hd. simpl. reflexivity. }
  split.
  - rewrite H1. unfold ensure_all, ensure_normals. simpl. rewrite String.eqb_refl.
    destruct o as [od ot oo ol oj]. simpl in Hs. vm_compute. rewrite Hs. reflexivity.
  - rewrite H1. eexists. reflexivity.
Qed.
