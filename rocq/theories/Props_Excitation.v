(** Property theorems about excitations: C27, C28, C29, C48. *)
From Coq Require Import Reals Lra Sorting.Sorted Permutation.
From Verif Require Import Base BaseFacts Float64 OrientModel MeshModel MeshSpec DedupFacts MeshFacts MeshOps MeshMisc MeshExamples
  Vec GeomModel OutwardSpec OutwardFacts MeshOutward OutwardMeshFacts ExcitationModel ExcitationFacts BoundaryFacts.

(** ** C27 Excitation bookkeeping *)
(** After any history of calls, from which the caller may have recovered after exceptions: a call succeeds
    exactly when all its assignments are allowed (and, for currents, the symmetry is radial); a call that
    fails has made the assignments before the first one that is not allowed; each name carries the last
    condition assigned to it, and names without assignment carry none. *)
Theorem C27_last_assignment_counts o m s e0 calls e outcomes :
  mesh_ok m -> new_excitation m s = Ok e0 -> run_calls o e0 calls = (e, outcomes) ->
  Forall2 (fun c r => r = Ok tt <-> Forall (allowed m s) (requests c) /\ (forall kw, c = AddCurrent kw -> s = RADIAL)) calls outcomes /\
  exists accepted, Forall2 (fun c acc => longest_prefix (allowed m s) (requests c) acc) calls accepted /\
    forall name, dget (e_types e) name = last_assigned name None (concat accepted).
Proof.
  intros M H0 H. unfold new_excitation in H0. apply bind_ok in H0. destruct H0 as (u & _ & H0). injection H0 as <-.
  assert (I : same_electrodes m s (mkexc m (get_electrodes m) [] s)).
  { constructor; cbn [e_symmetry e_mesh]; auto.
    - intros n. unfold is_electrode. cbn [e_electrodes]. unfold get_electrodes. rewrite existsb_exists. split.
      + intros (x & Hx & E). apply String.eqb_eq in E. subst. apply in_app_iff in Hx. exact Hx.
      + intros Hx. exists n. split; [apply in_app_iff; exact Hx|apply String.eqb_refl].
    - destruct M as [_ L T Pl Pt]. split; [|split; [|split]].
      + destruct (arows (m_lines m)) eqn:E; [exists 2; split; [auto|constructor]|]. rewrite <- E in *. exists (aw (m_lines m)). split.
        * destruct (proj1 L) as [Q|[Q|[]]]; [rewrite E; discriminate|auto|auto].
        * apply Forall_forall. intros r1 Hr. apply L. exact Hr.
      + apply Forall_forall. intros r1 Hr. destruct (proj2 T r1 Hr) as [Q _]. rewrite Q. destruct (proj1 T) as [Q'|[]]; [intros E; rewrite E in Hr; destruct Hr|auto].
      + apply Pl.
      + apply Pt. }
  exact (calls_history m s o calls _ e outcomes I H).
Qed.
Print Assumptions C27_last_assignment_counts.

(** The constructor accepts every mesh in three dimensions and exactly the meshes in the plane y = 0 (up to
    the sign of zero) for radial symmetry; a new excitation has no conditions. *)
Theorem C27_new_excitation m s :
  (exists e, new_excitation m s = Ok e) <-> (s = THREE_D \/ forall p, In p (m_points m) -> f64_eqb (py p) 0%Z = true).
Proof.
  unfold new_excitation. destruct s.
  - destruct (forallb (fun p => f64_eqb (py p) 0%Z) (m_points m)) eqn:E.
    + split; [intros _; right; apply forallb_forall; exact E|intros _; eexists; reflexivity].
    + split; [intros (e & Q); discriminate|]. intros [Q|Q]; [discriminate|]. apply forallb_forall in Q. congruence.
  - split; [auto|intros _; eexists; reflexivity].
Qed.
Print Assumptions C27_new_excitation.

(** Each name occurs once in the table of conditions. *)
Lemma each_NoDup {A} (f : excitation -> string -> A -> excitation * result unit) :
  (forall e n a, NoDup (dkeys (e_types e)) -> NoDup (dkeys (e_types (fst (f e n a))))) ->
  forall kw e, NoDup (dkeys (e_types e)) -> NoDup (dkeys (e_types (fst (each f e kw)))).
Proof.
  intros Hf kw. induction kw as [|[n a] kw IH]; intros e H; cbn [each]; [exact H|].
  specialize (Hf e n a H). destruct (f e n a) as [e1 [u|x]]; cbn [fst] in *; [apply IH|]; exact Hf.
Qed.
Lemma inward_types o names : forall e, e_types (fst (inward_all o e names)) = e_types e.
Proof.
  induction names as [|n names IH]; intros e; cbn [inward_all]; [reflexivity|].
  destruct (ensure_normals o false (e_mesh e) n); cbn [fst]; [rewrite IH|]; reflexivity.
Qed.
Theorem C27_one_condition_per_name o m s e0 calls e outcomes :
  new_excitation m s = Ok e0 -> run_calls o e0 calls = (e, outcomes) -> NoDup (dkeys (e_types e)).
Proof.
  intros H0 H. unfold new_excitation in H0. apply bind_ok in H0. destruct H0 as (u & _ & H0). injection H0 as <-.
  assert (N0 : NoDup (dkeys (e_types (mkexc m (get_electrodes m) [] s)))) by constructor.
  revert e outcomes N0 H. generalize (mkexc m (get_electrodes m) [] s). induction calls as [|c calls IH]; intros e1 e outcomes N1 H; cbn [run_calls] in H.
  - injection H as <- <-. exact N1.
  - destruct (run_call o e1 c) as [e2 r] eqn:E1. destruct (run_calls o e2 calls) as [e3 rs] eqn:E2. injection H as <- <-.
    apply (IH e2 e3 rs); [|exact E2]. replace e2 with (fst (run_call o e1 c)) by (rewrite E1; reflexivity). clear - N1.
    assert (El : forall C, forall kw e, NoDup (dkeys (e_types e)) -> NoDup (dkeys (e_types (fst (each (add_if_electrode C) e kw))))).
    { intros C. apply each_NoDup. intros e n a N. unfold add_if_electrode. destruct (is_electrode e n); [apply dset_NoDup|]; exact N. }
    assert (Bd : forall C b names, NoDup (dkeys (e_types (fst (add_boundary o (each (add_if_electrode C)) b e1 names))))).
    { intros C b names. unfold add_boundary. destruct b; [|apply El; exact N1].
      pose proof (inward_types o names e1) as T. destruct (inward_all o e1 names) as [e2 [u|x]]; cbn [fst] in *.
      - apply El. rewrite T. exact N1.
      - rewrite T. exact N1. }
    destruct c; cbn [run_call]; try (apply El; exact N1); try apply Bd.
    + apply each_NoDup; [|exact N1]. intros e n a N. destruct (is_electrode e n); [|exact N]. destruct a; try (apply dset_NoDup; exact N). exact N.
    + unfold add_current. destruct (e_symmetry e1); [|exact N1]. apply each_NoDup; [|exact N1]. intros e n a N.
      destruct (dhas _ n); [apply dset_NoDup|]; exact N.
Qed.
Print Assumptions C27_one_condition_per_name.

Example C27_nonvacuous :
  let m := mkmesh [(f0, f0, f0); (f1, f0, f0); (f0, f0, f1)] (mkarr 2 [[0; 1]]) (mkarr 3 [[0; 1; 2]])
             [("wire"%string, [0])] [("coil"%string, [0])] in
  mesh_ok m /\ (exists e0, new_excitation m RADIAL = Ok e0) /\
  allowed m RADIAL ("coil"%string, Some (CURRENT 2)) /\ ~ allowed m RADIAL ("wire"%string, Some (CURRENT 2)) /\
  allowed m THREE_D ("wire"%string, Some (VOLTAGE_FIXED 5)) /\ ~ allowed m THREE_D ("coil"%string, Some (CURRENT 2)).
Proof.
  cbv zeta. split; [apply input_okb_ok; vm_compute; reflexivity|]. split; [eexists; reflexivity|].
  unfold allowed; simpl. repeat split; auto; intros [Q1 Q2]; try discriminate. destruct Q2 as [Q|[]]; discriminate.
Qed.

(** ** C28 Superposition split *)
(** The applied value of a source: a constant voltage or a current. *)
Definition applied (c : condition) (v : R) : Prop := c = VOLTAGE_FIXED v \/ c = CURRENT v.

Lemma source_value_applied c v : source_value c = Some v <-> applied c v.
Proof. unfold applied. destruct c; simpl; split; intros H; try discriminate; try (injection H as <-; auto); destruct H as [H|H]; congruence. Qed.
Lemma nonzero_sources_In types n : NoDup (dkeys types) ->
  (In n (nonzero_sources types) <-> exists c v, dget types n = Some c /\ applied c v /\ v <> 0%R).
Proof.
  intros ND. unfold nonzero_sources. rewrite in_map_iff. split.
  - intros ([n' c] & E & H). simpl in E. subst. apply filter_In in H. destruct H as [H1 H2]. cbn [snd] in H2.
    destruct (source_value c) as [v|] eqn:Es; [|discriminate]. exists c, v. split; [apply In_dget; assumption|].
    split; [apply source_value_applied; exact Es|]. unfold nonzero in H2. destruct (Req_EM_T v 0); [discriminate|assumption].
  - intros (c & v & H1 & H2 & H3). exists (n, c). split; [reflexivity|]. apply filter_In. split; [apply dget_In; exact H1|].
    cbn [snd]. apply source_value_applied in H2. rewrite H2. unfold nonzero. destruct (Req_EM_T v 0); [contradiction|reflexivity].
Qed.

(** The condition of name [k] in the excitation made for name [n]. *)
Definition unit_of (n k : string) (c : condition) : condition :=
  match c with
  | VOLTAGE_FIXED _ => VOLTAGE_FIXED (if String.eqb k n then 1 else 0)
  | CURRENT _ => CURRENT (if String.eqb k n then 1 else 0)
  | c => c
  end.
Lemma unit_types name types types' :
  mapM (fun nc : string * condition => c <- unit_condition name (fst nc) (snd nc) ;; Ok (fst nc, c)) types = Ok types' ->
  dkeys types' = dkeys types /\ (forall k, dget types' k = option_map (unit_of name k) (dget types k)) /\
  (forall k f, In (k, VOLTAGE_FUN f) types -> False).
Proof.
  revert types'. induction types as [|[k c] types IH]; intros types' H; cbn [mapM] in H.
  - injection H as <-. split; [reflexivity|]. split; [reflexivity|intros k f []].
  - apply bind_ok in H. destruct H as ([k1 c1] & H1 & H). apply bind_ok in H. destruct H as (t' & H2 & H). injection H as <-.
    apply bind_ok in H1. destruct H1 as (c2 & Hc & E). cbn [fst] in E. injection E as <- <-.
    destruct (IH _ H2) as (K1 & K2 & K3). cbn [fst snd] in Hc. split; [simpl; unfold dkeys in *; rewrite K1; reflexivity|]. split.
    + intros k'. cbn [dget]. destruct (String.eqb_spec k k') as [<-|N]; [|apply K2]. cbn [option_map]. f_equal.
      unfold unit_condition in Hc. unfold unit_of. destruct c; try discriminate; injection Hc as <-; reflexivity.
    + intros k' f [E|E]; [|apply (K3 _ _ E)]. injection E as <- ->. discriminate.
Qed.

(** One excitation for each name with a non-zero constant voltage or current; all have the mesh, symmetry
    and names of the original; the name itself has value one, every other voltage and current is zero, all
    other conditions are retained. *)
Theorem C28_split e units : NoDup (dkeys (e_types e)) -> split_for_superposition e = Ok units ->
  NoDup (dkeys units) /\
  (forall n, In n (dkeys units) <-> exists c v, dget (e_types e) n = Some c /\ applied c v /\ v <> 0%R) /\
  (forall n u, In (n, u) units ->
     e_mesh u = e_mesh e /\ e_symmetry u = e_symmetry e /\ dkeys (e_types u) = dkeys (e_types e) /\
     (exists c, dget (e_types u) n = Some c /\ applied c 1) /\
     forall k c, dget (e_types e) k = Some c ->
       match c with
       | VOLTAGE_FIXED _ => dget (e_types u) k = Some (VOLTAGE_FIXED (if String.eqb k n then 1 else 0))
       | CURRENT _ => dget (e_types u) k = Some (CURRENT (if String.eqb k n then 1 else 0))
       | VOLTAGE_FUN _ => False
       | c => dget (e_types u) k = Some c
       end).
Proof.
  intros ND H. unfold split_for_superposition in H. apply mapM_ok in H.
  assert (Ek : dkeys units = nonzero_sources (e_types e)).
  { unfold dkeys. clear - H. induction H as [|n [n' u] ns us Hn F IH]; [reflexivity|]. simpl. rewrite IH. f_equal.
    apply bind_ok in Hn. destruct Hn as (u' & _ & E). injection E as <- _. reflexivity. }
  split; [|split].
  - rewrite Ek. unfold nonzero_sources. clear - ND. unfold dkeys in ND. induction (e_types e) as [|[k c] l IH]; simpl; [constructor|].
    inversion ND; subst. destruct (match source_value c with Some v => nonzero v | None => false end); [|apply IH; assumption].
    simpl. constructor; [|apply IH; assumption]. intros Q. apply H1. apply in_map_iff in Q. destruct Q as (x & E & Hx). apply filter_In in Hx.
    apply in_map_iff. exists x. tauto.
  - intros n. rewrite Ek. apply nonzero_sources_In. exact ND.
  - intros n u Hin. destruct (In_nth_error _ _ Hin) as [i Hi]. destruct (Forall2_nth_r _ _ _ _ _ H Hi) as (n' & Hn & Hu).
    apply bind_ok in Hu. destruct Hu as (u' & Hu & E). injection E as <- <-. unfold unit_excitation in Hu.
    apply bind_ok in Hu. destruct Hu as (types & Ht & Hu). apply bind_ok in Hu. destruct Hu as (e1 & He1 & Hu). injection Hu as <-.
    unfold new_excitation in He1. apply bind_ok in He1. destruct He1 as (v & _ & He1). injection He1 as <-.
    destruct (unit_types _ _ _ Ht) as (K1 & K2 & K3). unfold set_types. cbn [e_mesh e_symmetry e_types].
    repeat split; auto.
    + apply nth_error_In in Hn. apply nonzero_sources_In in Hn; [|exact ND]. destruct Hn as (c & x & Hc & Ha & _). rewrite K2, Hc.
      cbn [option_map]. destruct Ha as [-> | ->]; cbn [unit_of]; rewrite String.eqb_refl; eexists; (split; [reflexivity|]); [left|right]; reflexivity.
    + intros k c Hc. specialize (K2 k). rewrite Hc in K2. cbn [option_map] in K2. destruct c; cbn [unit_of] in K2; try exact K2.
      apply (K3 k f). apply dget_In. exact Hc.
Qed.
Print Assumptions C28_split.

(** Weighting the values of the parts with the applied values and summing gives back the original. *)
Definition value_of (e : excitation) (k : string) : R :=
  match dget (e_types e) k with Some (VOLTAGE_FIXED v) => v | Some (CURRENT v) => v | _ => 0 end.
Theorem C28_weighted_sum e units k : NoDup (dkeys (e_types e)) -> split_for_superposition e = Ok units ->
  fold_right Rplus 0%R (map (fun nu => value_of e (fst nu) * value_of (snd nu) k)%R units) = value_of e k.
Proof.
  intros ND H. destruct (C28_split e units ND H) as (N & K & U).
  assert (S : forall us, NoDup (dkeys us) -> (forall n u, In (n, u) us -> In (n, u) units) ->
    fold_right Rplus 0%R (map (fun nu => value_of e (fst nu) * value_of (snd nu) k)%R us) =
    if existsb (String.eqb k) (dkeys us) then value_of e k else 0%R).
  { induction us as [|[n u] us IH]; intros Nu Hus; [reflexivity|]. simpl. inversion Nu as [|? ? N1 N2]; subst.
    rewrite IH; [|exact N2|intros; apply Hus; right; assumption]. destruct (U n u (Hus n u (or_introl eq_refl))) as (_ & _ & Uk & _ & U2).
    assert (V : value_of u k = if String.eqb k n then (match dget (e_types e) k with Some (VOLTAGE_FIXED _) | Some (CURRENT _) => 1 | _ => 0 end)%R else 0%R).
    { unfold value_of. destruct (dget (e_types e) k) as [c|] eqn:Ec.
      - specialize (U2 k c Ec). destruct c; try (rewrite U2; destruct (String.eqb k n); reflexivity). destruct U2.
      - assert (D : dget (e_types u) k = None). { apply dget_None. rewrite Uk. apply dget_None. exact Ec. }
        rewrite D. destruct (String.eqb k n); reflexivity. }
    rewrite V. destruct (String.eqb_spec k n) as [->|Nk]; cbn [orb].
    - assert (X : existsb (String.eqb n) (dkeys us) = false).
      { apply not_true_iff_false. intros Q. apply existsb_exists in Q. destruct Q as (x & Hx & E). apply String.eqb_eq in E. subst. contradiction. }
      rewrite X. unfold value_of. destruct (dget (e_types e) n) as [[]|]; lra.
    - rewrite Rmult_0_r, Rplus_0_l. reflexivity. }
  rewrite S; [|exact N|auto]. destruct (existsb (String.eqb k) (dkeys units)) eqn:E; [reflexivity|].
  unfold value_of. destruct (dget (e_types e) k) as [c|] eqn:Ec; [|reflexivity].
  assert (Z : forall v, applied c v -> v = 0%R).
  { intros v Ha. destruct (Req_dec v 0) as [|Nv]; [assumption|]. exfalso. apply not_true_iff_false in E. apply E. apply existsb_exists.
    exists k. split; [apply K; eauto|apply String.eqb_refl]. }
  destruct c; try reflexivity; symmetry; apply Z; [left|right]; reflexivity.
Qed.
Print Assumptions C28_weighted_sum.

(** The split succeeds for constant voltages and currents, and is refused for a voltage function next to a
    non-zero source. *)
Theorem C28_defined e : (exists e0, new_excitation (e_mesh e) (e_symmetry e) = Ok e0) -> NoDup (dkeys (e_types e)) ->
  ((forall k f, dget (e_types e) k <> Some (VOLTAGE_FUN f)) -> exists units, split_for_superposition e = Ok units) /\
  (forall k f n c v, dget (e_types e) k = Some (VOLTAGE_FUN f) -> dget (e_types e) n = Some c -> applied c v -> v <> 0%R ->
     split_for_superposition e = Err AssertionError).
Proof.
  intros (e0 & He0) ND. split.
  - intros Hf. unfold split_for_superposition. apply mapM_total. intros n Hn.
    destruct (mapM_total (fun nc => c <- unit_condition n (fst nc) (snd nc) ;; Ok (fst nc, c)) (e_types e)) as [t Ht].
    { intros [k c] Hk. cbn [fst snd]. destruct c; cbn [unit_condition bind]; try (eexists; reflexivity).
      exfalso. apply (Hf k f). apply In_dget; assumption. }
    unfold unit_excitation. rewrite Ht. cbn [bind]. rewrite He0. cbn [bind]. eexists. reflexivity.
  - intros k f n c v Hk Hn Ha Hv. unfold split_for_superposition.
    assert (Hin : In n (nonzero_sources (e_types e))) by (apply nonzero_sources_In; eauto).
    assert (X : forall m, unit_excitation e m = Err AssertionError).
    { intros m. unfold unit_excitation. apply dget_In in Hk. clear - Hk.
      assert (Y : mapM (fun nc => c <- unit_condition m (fst nc) (snd nc) ;; Ok (fst nc, c)) (e_types e) = Err AssertionError); [|rewrite Y; reflexivity].
      induction (e_types e) as [|[k' c'] l IH]; [destruct Hk|]. destruct Hk as [E|Hk].
      - injection E as -> ->. reflexivity.
      - specialize (IH Hk). cbn [mapM fst snd]. destruct (unit_condition m k' c') as [c2|x] eqn:Ec; cbn [bind].
        + rewrite IH. reflexivity.
        + unfold unit_condition in Ec. destruct c'; try discriminate. injection Ec as <-. reflexivity. }
    destruct (nonzero_sources (e_types e)) as [|a l]; [destruct Hin|]. cbn [mapM]. rewrite X. reflexivity.
Qed.
Print Assumptions C28_defined.

Example C28_nonvacuous :
  let m := mkmesh [(f0, f0, f0); (f1, f0, f0)] (mkarr 2 [[0; 1]]) (mkarr 3 []) [("a"%string, [0]); ("b"%string, []); ("c"%string, [0])] [] in
  let e := mkexc m (get_electrodes m) [("a"%string, VOLTAGE_FIXED 5); ("b"%string, DIELECTRIC 2); ("c"%string, VOLTAGE_FIXED (-1))] RADIAL in
  NoDup (dkeys (e_types e)) /\ exists units, split_for_superposition e = Ok units /\ In "a"%string (dkeys units) /\ In "c"%string (dkeys units) /\ ~ In "b"%string (dkeys units).
Proof.
  cbv zeta. split; [repeat constructor; simpl; intuition discriminate|].
  set (m := mkmesh _ _ _ _ _). set (e := mkexc _ _ _ _).
  assert (ND : NoDup (dkeys (e_types e))) by (repeat constructor; simpl; intuition discriminate).
  destruct (C28_defined e) as [D _]; [eexists; reflexivity|exact ND|]. destruct D as [units Hu].
  { intros k f Hk. apply dget_In in Hk. simpl in Hk. destruct Hk as [Q|[Q|[Q|[]]]]; discriminate. }
  exists units. split; [exact Hu|]. destruct (C28_split e units ND Hu) as (_ & K & _). rewrite !K. split; [|split].
  - exists (VOLTAGE_FIXED 5), 5%R. repeat split; [left; reflexivity|lra].
  - exists (VOLTAGE_FIXED (-1)), (-1)%R. repeat split; [left; reflexivity|lra].
  - intros (c & v & Q & [-> | ->] & _); discriminate.
Qed.

(** ** C29 Active elements *)
(** Lines for radial symmetry, triangles in three dimensions. *)
Definition elements_of (e : excitation) : list row :=
  match e_symmetry e with RADIAL => arows (m_lines (e_mesh e)) | THREE_D => arows (m_triangles (e_mesh e)) end.
Definition groups_of (e : excitation) : dict :=
  match e_symmetry e with RADIAL => m_plines (e_mesh e) | THREE_D => m_ptriangles (e_mesh e) end.
(** The kinds of condition the two problems ask for. *)
Definition electrostatic_kind (c : condition) : Prop := exists v f k, c = VOLTAGE_FIXED v \/ c = VOLTAGE_FUN f \/ c = DIELECTRIC k.
Definition magnetostatic_kind (c : condition) : Prop := exists v k, c = MAGNETOSTATIC_POT v \/ c = MAGNETIZABLE k.
(** Element [i] belongs to a group that has a condition of the requested kind. *)
Definition has_condition (kind : condition -> Prop) (e : excitation) (i : nat) : Prop :=
  exists name c idx, In (name, c) (e_types e) /\ kind c /\ dget (groups_of e) name = Some idx /\ In i idx.

(** [act] lists, in mesh order and once each, exactly the elements with a condition of the requested kind;
    the returned vertices are those of these elements; a name is returned exactly when it is a group with a
    condition of that kind, with the positions in [act] of the members of the group, in group order. *)
Definition selects (kind : condition -> Prop) (e : excitation) (vertices : list (list point)) (names : dict) : Prop :=
  exists act, StronglySorted lt act /\
    (forall i, In i act <-> i < length (elements_of e) /\ has_condition kind e i) /\
    Forall2 (fun i v => exists r, nth_error (elements_of e) i = Some r /\
                                  Forall2 (fun k p => nth_error (m_points (e_mesh e)) k = Some p) r v) act vertices /\
    (forall name, (exists ks, dget names name = Some ks) <->
       (exists idx, dget (groups_of e) name = Some idx) /\ (exists c, dget (e_types e) name = Some c /\ kind c)) /\
    (forall name ks, dget names name = Some ks ->
       exists idx, dget (groups_of e) name = Some idx /\ Forall2 (fun i k => nth_error act k = Some i) idx ks).

Lemma active_selects check kind e vertices names : (forall c, check c = true <-> kind c) ->
  active_elements check e = Ok (vertices, names) -> selects kind e vertices names.
Proof.
  intros Hk H. apply active_elements_ok in H. unfold excitable in H.
  assert (Ee : arows (fst (match e_symmetry e with RADIAL => (m_lines (e_mesh e), m_plines (e_mesh e)) | THREE_D => (m_triangles (e_mesh e), m_ptriangles (e_mesh e)) end)) = elements_of e)
    by (unfold elements_of; destruct (e_symmetry e); reflexivity).
  assert (Eg : snd (match e_symmetry e with RADIAL => (m_lines (e_mesh e), m_plines (e_mesh e)) | THREE_D => (m_triangles (e_mesh e), m_ptriangles (e_mesh e)) end) = groups_of e)
    by (unfold groups_of; destruct (e_symmetry e); reflexivity).
  cbv zeta in H. rewrite Ee, Eg in H. destruct H as (act & A1 & A2 & A3 & A4 & A5). exists act. split; [exact A1|]. split; [|split; [exact A3|split; [|exact A5]]].
  - intros i. rewrite A2. split; intros [L (n & c & idx & Q1 & Q2 & Q3 & Q4)]; (split; [exact L|]); exists n, c, idx; repeat split; auto; apply Hk; exact Q2.
  - intros name. specialize (A4 name). destruct (dget names name) as [ks|] eqn:En.
    + split; [intros _|eauto]. destruct (dget (groups_of e) name) as [idx|] eqn:Eg'; [|exfalso; destruct A4 as [_ A4]; discriminate A4; left; reflexivity].
      split; [eauto|]. destruct (dget (e_types e) name) as [c|] eqn:Et; [|exfalso; destruct A4 as [_ A4]; discriminate A4; right; exact I].
      exists c. split; [reflexivity|]. apply Hk. destruct (check c) eqn:Ec; [reflexivity|]. exfalso. destruct A4 as [_ A4]. discriminate A4. right. first [exact Ec | reflexivity].
    + split; [intros (ks & Q); discriminate|]. intros ((idx & Q1) & c & Q2 & Q3). destruct A4 as [A4 _]. specialize (A4 eq_refl). rewrite Q1, Q2 in A4.
      destruct A4 as [A4|A4]; [discriminate|]. apply Hk in Q3. congruence.
Qed.
Lemma electrostatic_check c : is_electrostatic_type c = true <-> electrostatic_kind c.
Proof.
  unfold electrostatic_kind. split.
  - destruct c; intros H; try discriminate; [exists v, (fun _ _ _ => 0%R), 0%R|exists 0%R, f, 0%R|exists 0%R, (fun _ _ _ => 0%R), k]; auto.
  - intros (v & f & k & [-> | [-> | ->]]); reflexivity.
Qed.
Lemma magnetostatic_check c : in_magnetostatic_matrix c = true <-> magnetostatic_kind c.
Proof.
  unfold magnetostatic_kind. split.
  - destruct c; intros H; try discriminate; [exists v, 0%R|exists 0%R, k]; auto.
  - intros (v & k & [-> | ->]); reflexivity.
Qed.

Theorem C29_electrostatic e vertices names :
  get_electrostatic_active_elements e = Ok (vertices, names) -> selects electrostatic_kind e vertices names.
Proof. apply active_selects. apply electrostatic_check. Qed.
Print Assumptions C29_electrostatic.
Theorem C29_magnetostatic e vertices names :
  get_magnetostatic_active_elements e = Ok (vertices, names) -> selects magnetostatic_kind e vertices names.
Proof. apply active_selects. apply magnetostatic_check. Qed.
Print Assumptions C29_magnetostatic.

(** It succeeds when every name with such a condition is a group of the elements in use; a name without
    group (for example a name of triangles only, with radial symmetry) raises KeyError. *)
Lemma mark_missing check phys types : forall inactive name c, groups_ok (length inactive) phys ->
  In (name, c) types -> check c = true -> dget phys name = None -> mark_active check phys types inactive = Err KeyError.
Proof.
  induction types as [|[n c] types IH]; intros inactive name c0 G H Hc Hg; [destruct H|]. cbn [mark_active].
  destruct (check c) eqn:Ec.
  - destruct (dget phys n) as [idx|] eqn:En; [|reflexivity].
    destruct (put_all_total inactive idx false) as [in1 E1].
    { intros i Hi. destruct G as [_ G]. apply (G n idx i); [apply dget_In; exact En|exact Hi]. }
    rewrite E1. cbn [bind]. destruct H as [E|H]; [injection E as -> ->; congruence|].
    apply (IH _ name c0); auto. rewrite (put_all_length _ _ _ _ E1). exact G.
  - destruct H as [E|H]; [injection E as -> ->; congruence|]. apply (IH _ name c0); auto.
Qed.
Theorem C29_defined e : mesh_ok (e_mesh e) -> NoDup (dkeys (e_types e)) ->
  (forall check kind, (check, kind) = (is_electrostatic_type, electrostatic_kind) \/ (check, kind) = (in_magnetostatic_matrix, magnetostatic_kind) ->
     ((exists r, active_elements check e = Ok r) <->
        forall name c, dget (e_types e) name = Some c -> kind c -> exists idx, dget (groups_of e) name = Some idx) /\
     ((exists r, active_elements check e = Ok r) \/ active_elements check e = Err KeyError)).
Proof.
  intros M ND check kind Hck.
  assert (Hk : forall c, check c = true <-> kind c).
  { destruct Hck as [E|E]; injection E as -> ->; [apply electrostatic_check|apply magnetostatic_check]. }
  assert (Eg : snd (excitable e) = groups_of e) by (unfold groups_of, excitable; destruct (e_symmetry e); reflexivity).
  assert (Tot : (forall name c, dget (e_types e) name = Some c -> kind c -> exists idx, dget (groups_of e) name = Some idx) ->
                exists r, active_elements check e = Ok r).
  { intros H. apply active_elements_total; [exact M|]. intros name c Hin Hc. rewrite Eg.
    destruct (H name c) as [idx Hi]; [apply In_dget; assumption|apply Hk; exact Hc|]. rewrite Hi. discriminate. }
  assert (Bad : forall name c, dget (e_types e) name = Some c -> kind c -> dget (groups_of e) name = None -> active_elements check e = Err KeyError).
  { intros name c H1 H2 H3. unfold active_elements. unfold groups_of in H3. destruct M as [_ _ _ Pl Pt].
    destruct (e_symmetry e); (erewrite mark_missing; [reflexivity| |apply dget_In; exact H1|apply Hk; exact H2|exact H3]); rewrite repeat_length; assumption. }
  assert (Dec : (forall name c, dget (e_types e) name = Some c -> kind c -> exists idx, dget (groups_of e) name = Some idx) \/
                exists name c, dget (e_types e) name = Some c /\ kind c /\ dget (groups_of e) name = None).
  { destruct (existsb (fun nc => check (snd nc) && negb (dhas (groups_of e) (fst nc))) (e_types e)) eqn:Ex.
    - right. apply existsb_exists in Ex. destruct Ex as ([n c] & Hin & Q). cbn [fst snd] in Q. apply andb_true_iff in Q. destruct Q as [Q1 Q2].
      exists n, c. split; [apply In_dget; assumption|]. split; [apply Hk; exact Q1|]. unfold dhas in Q2. destruct (dget (groups_of e) n); [discriminate|reflexivity].
    - left. intros name c H1 H2. destruct (dget (groups_of e) name) as [idx|] eqn:E; [eauto|]. exfalso. apply not_true_iff_false in Ex. apply Ex.
      apply existsb_exists. exists (name, c). split; [apply dget_In; exact H1|]. cbn [fst snd]. apply Hk in H2. rewrite H2. unfold dhas. rewrite E. reflexivity. }
  split.
  - split; [|exact Tot]. intros (r & Hr). destruct Dec as [D|(n & c & H1 & H2 & H3)]; [exact D|]. rewrite (Bad n c H1 H2 H3) in Hr. discriminate.
  - destruct Dec as [D|(n & c & H1 & H2 & H3)]; [left; apply Tot; exact D|right; eapply Bad; eauto].
Qed.
Print Assumptions C29_defined.

Example C29_nonvacuous :
  let m := mkmesh [(f0, f0, f0); (f1, f0, f0); (f0, f0, f1)] (mkarr 2 [[0; 1]; [1; 2]; [2; 0]]) (mkarr 3 [])
             [("a"%string, [2; 0]); ("b"%string, [1]); ("c"%string, [0])] [] in
  let e := mkexc m (get_electrodes m) [("a"%string, VOLTAGE_FIXED 5); ("b"%string, MAGNETIZABLE 3); ("c"%string, DIELECTRIC 2)] RADIAL in
  get_electrostatic_active_elements e = Ok ([[(f0, f0, f0); (f1, f0, f0)]; [(f0, f0, f1); (f0, f0, f0)]], [("a"%string, [1; 0]); ("c"%string, [0])]).
Proof. reflexivity. Qed.

(** ** C48 Inward boundary normals *)
(** add_electrostatic_boundary and add_magnetostatic_boundary do turn the normals of a closed boundary
    inward (negative area or volume)... *)
Theorem C48_in_the_users_mesh_partial o e c names e' name idx pos : is_boundary_call c names -> run_call o e c = (e', Ok tt) ->
  mesh_ok (e_mesh e) -> In name names -> NoDup idx ->
  (dget (m_plines (e_mesh e)) name = Some idx -> apart (m_plines (e_mesh e)) name idx ->
   (forall l, o_line_outwards o (m_points (e_mesh e)) l = line_outwards pos l) ->
   exists els, np_take (arows (m_lines (e_mesh e'))) idx = Ok els /\ outlines_oriented false pos els) /\
  (dget (m_ptriangles (e_mesh e)) name = Some idx -> apart (m_ptriangles (e_mesh e)) name idx ->
   (forall l, o_tri_outwards o (m_points (e_mesh e)) l = triangle_outwards pos l) ->
   exists els, np_take (arows (m_triangles (e_mesh e'))) idx = Ok els /\ hulls_oriented false o (m_points (e_mesh e)) pos els) /\
  (forall third, is_2d (e_mesh e') = false \/ is_higher_order (e_mesh e') = true -> solved_excitation o third e' = Ok e').
Proof.
  intros Hc H M Hin ND. split; [|split].
  - intros Hg Ha Ho. eapply boundary_lines_inward; eauto. eapply boundary_call_mesh_ok; eauto.
  - intros Hg Ha Ho. eapply boundary_triangles_inward; eauto.
  - intros third [Q|Q]; unfold solved_excitation; rewrite Q; [reflexivity|]. rewrite andb_false_r. reflexivity.
Qed.
Print Assumptions C48_in_the_users_mesh_partial.

(** ... but a two-dimensional mesh of straight lines is converted before it is solved, and the conversion
    turns every named closed outline outward again, whatever was requested. *)
Theorem C48_refuted o third e e' name idx pos :
  (forall p q, pt_ok p -> pt_ok q -> pt_ok (fst (third p q)) /\ pt_ok (snd (third p q))) ->
  mesh_ok (e_mesh e) -> is_2d (e_mesh e) = true -> is_higher_order (e_mesh e) = false ->
  solved_excitation o third e = Ok e' ->
  dget (m_plines (e_mesh e)) name = Some idx -> NoDup idx -> apart (m_plines (e_mesh e)) name idx ->
  (forall l, o_line_outwards o (m_points (e_mesh e')) l = line_outwards pos l) ->
  exists els, np_take (arows (m_lines (e_mesh e'))) idx = Ok els /\ outlines_oriented true pos els.
Proof. exact (solved_lines_outward o third e e' name idx pos). Qed.
Print Assumptions C48_refuted.

(** A boundary of three lines: inward after the call, outward in the mesh that is solved. *)
Definition third1 : f64 := 0x3FD5555555555555%Z.
Definition third2 : f64 := 0x3FE5555555555555%Z.
Definition ex_third_coord (a b : f64) : f64 * f64 :=
  if f64_eqb a b then (a, a) else if f64_eqb a f0 then (third1, third2) else (third2, third1).
Definition ex_third (p q : point) : point * point :=
  let '(x1, x2) := ex_third_coord (px p) (px q) in let '(z1, z2) := ex_third_coord (pz p) (pz q) in ((x1, f0, z1), (x2, f0, z2)).
(** Shoelace formula for points with coordinates 0 and 1. *)
Definition coord01 (b : f64) : Z := if f64_eqb b f1 then 1%Z else 0%Z.
Definition shoelace (pts : list point) (els : list row) : Z :=
  fold_right Z.add 0%Z (map (fun r : row => match r with
    | a :: b :: _ => match nth_error pts a, nth_error pts b with
                     | Some p, Some q => (coord01 (px p) * coord01 (pz q) - coord01 (px q) * coord01 (pz p))%Z
                     | _, _ => 0%Z end
    | _ => 0%Z end) els).
Definition ex_outward_o : oracles :=
  {| o_degenerate := fun _ _ _ => false; o_tri_equal := fun _ _ _ => (-1)%Z; o_tri_outwards := fun _ _ => false;
     o_line_outwards := fun pts els => (0 <? shoelace pts els)%Z; o_junk := fun i => i |}.
Theorem C48_example :
  exists m e0 e1 e2, new_mesh ex_outward_o [(f0, f0, f0); (f1, f0, f0); (f0, f0, f1)] (mkarr 2 [[0; 1]; [1; 2]; [2; 0]]) (mkarr 3 [])
             [("boundary"%string, [0; 1; 2])] [] true = Ok m /\ new_excitation m RADIAL = Ok e0 /\
    run_call ex_outward_o e0 (AddElectrostaticBoundary true ["boundary"%string]) = (e1, Ok tt) /\
    solved_excitation ex_outward_o ex_third e1 = Ok e2 /\
    shoelace (m_points (e_mesh e1)) (arows (m_lines (e_mesh e1))) = (-1)%Z /\
    shoelace (m_points (e_mesh e2)) (arows (m_lines (e_mesh e2))) = 1%Z.
Proof. do 4 eexists. split; [vm_compute; reflexivity|]. split; [reflexivity|]. split; [vm_compute; reflexivity|]. split; [vm_compute; reflexivity|]. split; vm_compute; reflexivity. Qed.
Print Assumptions C48_example.
