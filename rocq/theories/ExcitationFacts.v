(** Facts about excitations (C27, C28, C29). *)
From Coq Require Import Reals Sorting.Sorted.
From Verif Require Import Base BaseFacts Float64 OrientModel MeshModel MeshSpec DedupFacts MeshFacts MeshOps ExcitationModel.

(** ** Active elements *)
Lemma put_all_nth {A} (l : list A) idx x l' i a : put_all l idx x = Ok l' -> nth_error l i = Some a ->
  nth_error l' i = Some (if memb i idx then x else a).
Proof.
  unfold put_all. revert l a. induction idx as [|j idx IH]; intros l a H Hi; cbn [map np_put] in H.
  - injection H as <-. exact Hi.
  - apply bind_ok in H. destruct H as (l1 & H1 & H). unfold np_set in H1.
    destruct (j <? length l) eqn:E; [|discriminate]. injection H1 as <-. apply Nat.ltb_lt in E.
    unfold memb in *. cbn [existsb]. destruct (Nat.eqb_spec i j) as [->|N].
    + rewrite (IH (upd l j x) x H (nth_error_upd_eq l j x E)). cbn [orb]. destruct (existsb (Nat.eqb j) idx); reflexivity.
    + apply (IH (upd l j x) a H). rewrite nth_error_upd_ne by exact N. exact Hi.
Qed.
Lemma put_all_total {A} (l : list A) idx x : (forall i, In i idx -> i < length l) -> exists l', put_all l idx x = Ok l'.
Proof. intros H. apply np_put_total; [apply map_length|exact H]. Qed.
Lemma put_all_length {A} (l : list A) idx x l' : put_all l idx x = Ok l' -> length l' = length l.
Proof. intros H. apply np_put_length in H. tauto. Qed.

Definition excited (check : condition -> bool) (physicals : dict) (types : list (string * condition)) (i : nat) : Prop :=
  exists name c idx, In (name, c) types /\ check c = true /\ dget physicals name = Some idx /\ In i idx.

Lemma mark_active_ok check phys types : forall inactive fl, mark_active check phys types inactive = Ok fl ->
  length fl = length inactive /\
  forall i b, nth_error inactive i = Some b -> exists b', nth_error fl i = Some b' /\
    (b' = false <-> b = false \/ excited check phys types i).
Proof.
  induction types as [|[name c] types IH]; intros inactive fl H; cbn [mark_active] in H.
  - injection H as <-. split; [reflexivity|]. intros i b Hb. exists b. split; [exact Hb|]. split; [auto|].
    intros [K|(n & d & idx & [] & _)]. exact K.
  - destruct (check c) eqn:Ec.
    + destruct (dget phys name) as [idx|] eqn:Eg; [|discriminate]. apply bind_ok in H. destruct H as (in1 & H1 & H).
      destruct (IH in1 fl H) as (L & K). split; [rewrite L; apply (put_all_length _ _ _ _ H1)|].
      intros i b Hb. pose proof (put_all_nth _ _ _ _ _ _ H1 Hb) as P. destruct (K i _ P) as (b' & Hb' & E). exists b'. split; [exact Hb'|].
      rewrite E. split.
      * intros [Q|(n & d & ix & I & C & G & M)].
        -- destruct (memb i idx) eqn:Em; [right|left; exact Q]. exists name, c, idx. repeat split; auto; [left; reflexivity|].
           unfold memb in Em. apply existsb_exists in Em. destruct Em as (j & Hj & Ej). apply Nat.eqb_eq in Ej. subst. exact Hj.
        -- right. exists n, d, ix. repeat split; auto. right. exact I.
      * intros [Q|(n & d & ix & [I|I] & C & G & M)].
        -- left. subst. destruct (memb i idx); reflexivity.
        -- injection I as <- <-. rewrite Eg in G. injection G as <-. left.
           replace (memb i idx) with true; [reflexivity|]. symmetry. unfold memb. apply existsb_exists. exists i. split; [exact M|apply Nat.eqb_refl].
        -- right. exists n, d, ix. repeat split; auto.
    + destruct (IH inactive fl H) as (L & K). split; [exact L|]. intros i b Hb. destruct (K i b Hb) as (b' & Hb' & E). exists b'. split; [exact Hb'|].
      rewrite E. split; (intros [Q|(n & d & ix & I & C & G & M)]; [left; exact Q|right]).
      * exists n, d, ix. repeat split; auto. right. exact I.
      * destruct I as [I|I]; [injection I as <- <-; congruence|]. exists n, d, ix. repeat split; auto.
Qed.
Lemma mark_active_total check phys types n : groups_ok n phys ->
  (forall name c, In (name, c) types -> check c = true -> dget phys name <> None) ->
  forall inactive, length inactive = n -> exists fl, mark_active check phys types inactive = Ok fl.
Proof.
  intros G. induction types as [|[name c] types IH]; intros Ht inactive L; cbn [mark_active].
  - eexists. reflexivity.
  - destruct (check c) eqn:Ec.
    + specialize (Ht name c (or_introl eq_refl) Ec) as D. destruct (dget phys name) as [idx|] eqn:Eg; [|congruence].
      destruct (put_all_total inactive idx false) as [in1 E1].
      { intros i Hi. rewrite L. destruct G as [_ G]. apply (G name idx i); [apply dget_In; exact Eg|exact Hi]. }
      rewrite E1. cbn [bind]. apply IH; [|rewrite (put_all_length _ _ _ _ E1); exact L].
      intros n' c' I. apply Ht. right. exact I.
    + apply IH; [|exact L]. intros n' c' I. apply Ht. right. exact I.
Qed.

Lemma mask_arange n m : length m = n -> StronglySorted lt (mask (arange n) m).
Proof.
  intros _. unfold arange. generalize 0. revert m. induction n as [|n IH]; intros m s; [destruct m; constructor|].
  destruct m as [|b m]; [constructor|]. cbn [seq mask]. destruct b; [|apply IH].
  constructor; [apply IH|]. apply Forall_forall. intros x Hx. apply mask_In in Hx. apply in_seq in Hx. lia.
Qed.

Lemma dget_filter_keys (d : dict) (P : string -> bool) k : dget (filter (fun g => P (fst g)) d) k = if P k then dget d k else None.
Proof.
  induction d as [|[k' v] d IH]; cbn [filter fst dget]; [destruct (P k); reflexivity|].
  destruct (P k') eqn:E; cbn [dget].
  - destruct (String.eqb_spec k' k) as [->|N]; [rewrite E; reflexivity|exact IH].
  - rewrite IH. destruct (String.eqb_spec k' k) as [->|N]; [rewrite E; reflexivity|reflexivity].
Qed.
Lemma dget_mapM_dict {A B} (f : A -> result B) d d' k : mapM_dict f d = Ok d' ->
  match dget d k with None => dget d' k = None | Some v => exists v', f v = Ok v' /\ dget d' k = Some v' end.
Proof.
  revert d'. induction d as [|[k' v] d IH]; intros d' H; cbn [mapM_dict] in H.
  - injection H as <-. reflexivity.
  - apply bind_ok in H. destruct H as (v' & Hv & H). apply bind_ok in H. destruct H as (t' & Ht & H). injection H as <-.
    cbn [dget]. destruct (String.eqb k' k); [eauto|apply IH; exact Ht].
Qed.

(** The part of the mesh an excitation acts on. *)
Definition excitable (e : excitation) : arr2 * dict :=
  match e_symmetry e with
  | RADIAL => (m_lines (e_mesh e), m_plines (e_mesh e))
  | THREE_D => (m_triangles (e_mesh e), m_ptriangles (e_mesh e))
  end.

Lemma active_elements_ok check e verts names : active_elements check e = Ok (verts, names) ->
  let elements := fst (excitable e) in let physicals := snd (excitable e) in
  exists act, StronglySorted lt act /\
    (forall i, In i act <-> i < length (arows elements) /\ excited check physicals (e_types e) i) /\
    Forall2 (fun i v => exists r, nth_error (arows elements) i = Some r /\ Forall2 (fun k p => nth_error (m_points (e_mesh e)) k = Some p) r v) act verts /\
    (forall name, dget names name = None <->
       dget physicals name = None \/ match dget (e_types e) name with Some c => check c = false | None => True end) /\
    (forall name ks, dget names name = Some ks ->
       exists idx, dget physicals name = Some idx /\
         Forall2 (fun i k => nth_error act k = Some i) idx ks).
Proof.
  unfold active_elements, excitable. intros H.
  destruct (match e_symmetry e with RADIAL => _ | THREE_D => _ end) as [els phys] eqn:Es.
  cbn [fst snd]. apply bind_ok in H. destruct H as (fl & Hfl & H). apply bind_ok in H. destruct H as (nm & Hnm & H).
  apply bind_ok in H. destruct H as (vs & Hvs & H). injection H as <- <-.
  destruct (mark_active_ok _ _ _ _ _ Hfl) as (L & K). rewrite repeat_length in L.
  set (act := mask (arange (length (arows els))) (map negb fl)). exists act.
  assert (Hact : forall i, In i act <-> nth_error fl i = Some false).
  { intros i. unfold act. rewrite mask_In_iff. split.
    - intros (j & J1 & J2). assert (j < length (arows els)) by (rewrite <- (arange_length (length (arows els))); eapply nth_error_lt; exact J1).
      rewrite arange_nth in J1 by assumption. injection J1 as <-. rewrite nth_error_map in J2. destruct (nth_error fl j) as [[|]|]; try discriminate. reflexivity.
    - intros Hi. exists i. assert (i < length (arows els)) by (rewrite <- L; eapply nth_error_lt; exact Hi).
      rewrite arange_nth by assumption. split; [reflexivity|]. rewrite nth_error_map, Hi. reflexivity. }
  assert (Hexc : forall i, i < length (arows els) -> (nth_error fl i = Some false <-> excited check phys (e_types e) i)).
  { intros i Hi. destruct (K i true) as (b' & Hb' & E); [apply nth_error_repeat; exact Hi|].
    rewrite Hb'. split.
    - intros Q. injection Q as ->. destruct (proj1 E eq_refl) as [Q|Q]; [discriminate|exact Q].
    - intros Q. f_equal. apply E. right. exact Q. }
  split; [apply mask_arange; rewrite map_length; exact L|]. split; [|split; [|split]].
  - intros i. rewrite Hact. split.
    + intros Hi. assert (i < length (arows els)) by (rewrite <- L; eapply nth_error_lt; exact Hi). split; [assumption|]. apply Hexc; assumption.
    + intros (Hi & Q). apply Hexc; assumption.
  - apply mapM_ok in Hvs. apply Forall2_nth_error. split.
    + rewrite <- (Forall2_length _ _ _ Hvs). unfold act. rewrite !mask_len_count; rewrite ?map_length, ?arange_length; auto.
    + intros k i v Hi Hv. destruct (Forall2_nth_r _ _ _ _ _ Hvs Hv) as (r & Hr & Ht).
      destruct (mask_nth_inv _ _ _ _ Hr) as (j & J1 & J2 & J3). exists r. apply np_take_ok in Ht. split; [|exact Ht].
      assert (Hj : j < length (arows els)) by (eapply nth_error_lt; exact J1).
      pose proof (mask_nth (arange (length (arows els))) _ j j J2 (arange_nth _ _ Hj)) as M. rewrite J3 in M.
      fold act in M. rewrite Hi in M. injection M as ->. exact J1.
  - intros name. pose proof (dget_mapM_dict _ _ _ name Hnm) as D.
    rewrite (dget_filter_keys phys (fun n => match dget (e_types e) n with Some c => check c | None => false end)) in D.
    destruct (dget (e_types e) name) as [c|].
    + destruct (check c).
      * destruct (dget phys name) as [idx|]; [destruct D as (v' & _ & D)|]; rewrite D; split; intros Q; try discriminate; auto.
        destruct Q; discriminate.
      * rewrite D. split; auto.
    + rewrite D. split; auto.
  - intros name ks Hks. pose proof (dget_mapM_dict _ _ _ name Hnm) as D.
    rewrite (dget_filter_keys phys (fun n => match dget (e_types e) n with Some c => check c | None => false end)) in D.
    destruct (dget (e_types e) name) as [c|] eqn:Ec; [|congruence].
    destruct (check c) eqn:Ech; [|congruence]. destruct (dget phys name) as [idx|] eqn:Eg; [|congruence].
    destruct D as (v' & Hv' & D). rewrite Hks in D. injection D as <-. exists idx. split; [reflexivity|].
    apply np_take_ok in Hv'. replace (map2 Nat.sub (arange (length (arows els))) (cumsum fl)) with (degenerate_map fl) in Hv'
      by (unfold degenerate_map; rewrite L; reflexivity).
    assert (Hin : Forall (fun i => nth_error fl i = Some false) idx).
    { apply Forall_forall. intros i Hi.
      assert (Hl : i < length (arows els)).
      { destruct (In_nth_error _ _ Hi) as [q Hq]. destruct (Forall2_nth_l _ _ _ _ _ Hv' Hq) as (a & _ & Ha).
        apply nth_error_lt in Ha. unfold degenerate_map in Ha. rewrite map2_length, arange_length, cumsum_length, L, Nat.min_id in Ha. exact Ha. }
      apply Hexc; [exact Hl|]. exists name, c, idx. repeat split; auto. apply dget_In. exact Ec. }
    clear - Hv' Hin L act. revert Hin. induction Hv' as [|i k idx ks Hik F IH]; intros Hin; constructor.
    + inversion Hin; subst. rewrite (degenerate_map_nth fl i H1) in Hik. injection Hik as <-.
      unfold act. apply mask_nth; [rewrite nth_error_map, H1; reflexivity|]. apply arange_nth. rewrite <- L. eapply nth_error_lt; exact H1.
    + inversion Hin; subst. apply IH. assumption.
Qed.

Lemma active_elements_total check e : mesh_ok (e_mesh e) ->
  (forall name c, In (name, c) (e_types e) -> check c = true -> dget (snd (excitable e)) name <> None) ->
  exists r, active_elements check e = Ok r.
Proof.
  intros [P Lk Tk Pl Pt] Hn. unfold active_elements, excitable in *.
  set (ep := match e_symmetry e with RADIAL => _ | THREE_D => _ end) in *.
  assert (G : groups_ok (length (arows (fst ep))) (snd ep) /\ forall r, In r (arows (fst ep)) -> forall i, In i r -> i < length (m_points (e_mesh e))).
  { unfold ep. destruct (e_symmetry e); simpl; split; auto; intros r Hr i Hi; [apply (proj2 Lk r Hr); exact Hi|apply (proj2 Tk r Hr); exact Hi]. }
  destruct ep as [els phys]. cbn [fst snd] in *. destruct G as [G V].
  destruct (mark_active_total check phys (e_types e) _ G Hn (repeat true (length (arows els))) (repeat_length _ _)) as [fl Hfl].
  rewrite Hfl. cbn [bind]. destruct (mark_active_ok _ _ _ _ _ Hfl) as (L & _). rewrite repeat_length in L.
  destruct (mapM_dict_total (np_take (map2 Nat.sub (arange (length (arows els))) (cumsum fl)))
    (filter (fun g => match dget (e_types e) (fst g) with Some c => check c | None => false end) phys)) as [nm Hnm].
  { intros k v Hkv. apply filter_In in Hkv. apply np_take_total. intros i Hi.
    rewrite map2_length, arange_length, cumsum_length, L, Nat.min_id. destruct G as [_ G]. apply (G k v i); [apply Hkv|exact Hi]. }
  rewrite Hnm. cbn [bind].
  destruct (mapM_total (np_take (m_points (e_mesh e))) (mask (arows els) (map negb fl))) as [vs Hvs].
  { intros r Hr. apply mask_In in Hr. apply np_take_total. apply V. exact Hr. }
  rewrite Hvs. eexists. reflexivity.
Qed.

(** ** Histories of calls *)
(** The assignments a call asks for, in order ([None]: an unsupported value). *)
Definition requests (c : call) : list (string * option condition) :=
  match c with
  | AddVoltage kw => map (fun nv => (fst nv, match snd nv with
                                             | VNumber v => Some (VOLTAGE_FIXED v)
                                             | VFunction f => Some (VOLTAGE_FUN f)
                                             | VOther => None end)) kw
  | AddCurrent kw => map (fun nv => (fst nv, Some (CURRENT (snd nv)))) kw
  | AddMagnetostaticPotential kw => map (fun nv => (fst nv, Some (MAGNETOSTATIC_POT (snd nv)))) kw
  | AddMagnetizable kw => map (fun nv => (fst nv, Some (MAGNETIZABLE (snd nv)))) kw
  | AddDielectric kw => map (fun nv => (fst nv, Some (DIELECTRIC (snd nv)))) kw
  | AddElectrostaticBoundary _ names => map (fun n => (n, Some (DIELECTRIC 0))) names
  | AddMagnetostaticBoundary _ names => map (fun n => (n, Some (MAGNETIZABLE 0))) names
  end.
(** An assignment is allowed when the name is an electrode of the mesh (the name of a group of lines or
    triangles); a current needs radial symmetry and a group of triangles. *)
Definition allowed (m : mesh) (s : symmetry) (r : string * option condition) : Prop :=
  match snd r with
  | None => False
  | Some (CURRENT _) => s = RADIAL /\ In (fst r) (dkeys (m_ptriangles m))
  | Some _ => In (fst r) (dkeys (m_plines m)) \/ In (fst r) (dkeys (m_ptriangles m))
  end.
(** [l'] is the longest beginning of [l] whose members satisfy [P]. *)
Inductive longest_prefix {A} (P : A -> Prop) : list A -> list A -> Prop :=
  | lp_nil : longest_prefix P [] []
  | lp_stop a l : ~ P a -> longest_prefix P (a :: l) []
  | lp_go a l l' : P a -> longest_prefix P l l' -> longest_prefix P (a :: l) (a :: l').
(** The last condition assigned to [name] in a list of assignments, or what it was before. *)
Fixpoint last_assigned (name : string) (before : option condition) (l : list (string * option condition)) : option condition :=
  match l with
  | [] => before
  | (n, c) :: t => last_assigned name (if String.eqb n name then c else before) t
  end.

Record same_electrodes (m : mesh) (s : symmetry) (e : excitation) : Prop := {
  se_sym : e_symmetry e = s;
  se_pt : dkeys (m_ptriangles (e_mesh e)) = dkeys (m_ptriangles m);
  se_el : forall n, is_electrode e n = true <-> In n (dkeys (m_plines m)) \/ In n (dkeys (m_ptriangles m));
  se_or : orientable_ok (e_mesh e) }.

Lemma each_history {A} m s (req : string * A -> string * option condition) (f : excitation -> string -> A -> excitation * result unit) :
  (forall e n a e' r, same_electrodes m s e -> f e n a = (e', r) ->
     (r = Ok tt /\ allowed m s (req (n, a)) /\ exists c, req (n, a) = (n, Some c) /\ e' = assign e n c) \/
     (r <> Ok tt /\ ~ allowed m s (req (n, a)) /\ e' = e)) ->
  forall kw e e' r, same_electrodes m s e -> each f e kw = (e', r) ->
  same_electrodes m s e' /\ (r = Ok tt <-> Forall (allowed m s) (map req kw)) /\
  exists acc, longest_prefix (allowed m s) (map req kw) acc /\
    forall name, dget (e_types e') name = last_assigned name (dget (e_types e) name) acc.
Proof.
  intros Hf kw. induction kw as [|[n a] kw IH]; intros e e' r I H; cbn [each] in H.
  - injection H as <- <-. split; [exact I|]. split; [split; auto; constructor|]. exists []. split; [constructor|reflexivity].
  - destruct (f e n a) as [e1 r1] eqn:E1. destruct (Hf _ _ _ _ _ I E1) as [(-> & Al & c & Rq & ->)|(Nr & Al & ->)].
    + assert (I1 : same_electrodes m s (assign e n c)) by (destruct I; constructor; assumption).
      destruct (IH _ _ _ I1 H) as (I2 & R & acc & La & K). split; [exact I2|]. cbn [map]. split.
      * rewrite R. split; [constructor; assumption|intros F; inversion F; assumption].
      * exists (req (n, a) :: acc). split; [constructor; assumption|]. intros name. rewrite K. rewrite Rq. cbn [last_assigned].
        unfold assign, set_types. cbn [e_types]. rewrite dget_dset. reflexivity.
    + destruct r1 as [[]|x]; [congruence|]. injection H as <- <-. split; [exact I|]. cbn [map]. split.
      * split; [discriminate|intros F; inversion F; contradiction].
      * exists []. split; [constructor; assumption|reflexivity].
Qed.

Lemma add_if_electrode_step m s (C : R -> condition) : (forall v n, allowed m s (n, Some (C v)) <-> In n (dkeys (m_plines m)) \/ In n (dkeys (m_ptriangles m))) ->
  forall e n a e' r, same_electrodes m s e -> add_if_electrode C e n a = (e', r) ->
     (r = Ok tt /\ allowed m s (n, Some (C a)) /\ exists c, (n, Some (C a)) = (n, Some c) /\ e' = assign e n c) \/
     (r <> Ok tt /\ ~ allowed m s (n, Some (C a)) /\ e' = e).
Proof.
  intros HC e n a e' r I H. unfold add_if_electrode in H. pose proof (se_el _ _ _ I n) as El. rewrite <- (HC a n) in El.
  destruct (is_electrode e n) eqn:E; injection H as <- <-.
  - left. split; [reflexivity|]. split; [apply El; reflexivity|]. eauto.
  - right. split; [discriminate|]. split; [|reflexivity]. intros Q. apply El in Q. discriminate.
Qed.

Lemma inward_all_ok m s o names : forall e e' r, same_electrodes m s e -> inward_all o e names = (e', r) ->
  same_electrodes m s e' /\ r = Ok tt /\ e_types e' = e_types e.
Proof.
  induction names as [|n names IH]; intros e e' r I H; cbn [inward_all] in H.
  - injection H as <- <-. auto.
  - destruct (ensure_normals_total o false (e_mesh e) n (se_or _ _ _ I)) as [m1 E1]. rewrite E1 in H.
    pose proof (ensure_normals_flips _ _ _ _ _ E1) as F.
    assert (I1 : same_electrodes m s (set_mesh e m1)).
    { destruct I. constructor; cbn [set_mesh e_symmetry e_mesh]; auto.
      - destruct F as (_ & _ & _ & _ & _ & _ & F7). rewrite F7. assumption.
      - eapply orientable_ok_flips; eassumption. }
    destruct (IH _ _ _ I1 H) as (I2 & R & T). auto.
Qed.

Lemma longest_prefix_unique {A} (P : A -> Prop) l a b : longest_prefix P l a -> longest_prefix P l b -> a = b.
Proof. intros H. revert b. induction H; intros b0 Hb; inversion Hb; subst; try contradiction; try reflexivity. f_equal; auto. Qed.
Lemma longest_prefix_all {A} (P : A -> Prop) l : Forall P l -> longest_prefix P l l.
Proof. induction 1; constructor; assumption. Qed.
Lemma longest_prefix_app {A} (P : A -> Prop) l1 l2 p : Forall P l1 -> longest_prefix P l2 p -> longest_prefix P (l1 ++ l2) (l1 ++ p).
Proof. intros F H. induction F; simpl; [exact H|constructor; auto]. Qed.
Lemma longest_prefix_exists {A} (P : A -> Prop) (dec : forall a, P a \/ ~ P a) l : exists p, longest_prefix P l p.
Proof.
  induction l as [|a l (p & IH)]; [exists []; constructor|]. destruct (dec a); [exists (a :: p)|exists []]; constructor; assumption.
Qed.
Lemma longest_prefix_cut {A} (P : A -> Prop) l1 l2 p : ~ Forall P l1 -> longest_prefix P l1 p -> longest_prefix P (l1 ++ l2) p.
Proof.
  intros N H. induction H; simpl; [exfalso; apply N; constructor|constructor; assumption|].
  constructor; [assumption|]. apply IHlongest_prefix. intros F. apply N. constructor; assumption.
Qed.

(** Repeated names in a list of boundaries make no difference. *)
Lemma dhas_In {A} (d : list (string * A)) n : dhas d n = true <-> In n (dkeys d).
Proof.
  unfold dhas. destruct (dget d n) eqn:E; split; intros H; try discriminate; auto.
  - destruct (in_dec string_dec n (dkeys d)) as [|N]; [assumption|]. apply dget_None in N. congruence.
  - apply dget_None in E. contradiction.
Qed.
Lemma zero_dict_prefix (P : string -> Prop) (dec : forall a, P a \/ ~ P a) names : forall (d : list (string * R)) p q,
  longest_prefix P (dkeys (fold_left (fun d n => dset d n 0%R) names d)) p ->
  longest_prefix P (dkeys d ++ names) q -> forall x, In x p <-> In x q.
Proof.
  induction names as [|n names IH]; intros d p q Hp Hq x; cbn [fold_left] in Hp.
  - rewrite app_nil_r in Hq. rewrite (longest_prefix_unique _ _ _ _ Hp Hq). tauto.
  - assert (decF : Forall P (dkeys d) \/ ~ Forall P (dkeys d)).
    { generalize (dkeys d). intros l. induction l as [|a l IHl]; [left; constructor|].
      destruct (dec a) as [Pa|Na]; [|right; intros F; inversion F; contradiction].
      destruct IHl as [F|F]; [left; constructor; assumption|right; intros G; inversion G; contradiction]. }
    destruct (longest_prefix_exists P dec (dkeys (dset d n 0%R) ++ names)) as [p' Hp'].
    rewrite (IH _ _ _ Hp Hp' x). clear IH Hp p. rewrite dkeys_dset in Hp'. destruct (dhas d n) eqn:Eh.
    + apply dhas_In in Eh. destruct decF as [F|F].
      * destruct (longest_prefix_exists P dec names) as [t Ht].
        assert (Pn : P n) by (rewrite Forall_forall in F; apply F; exact Eh).
        rewrite (longest_prefix_unique _ _ _ _ Hp' (longest_prefix_app _ _ _ _ F Ht)).
        rewrite (longest_prefix_unique _ _ _ _ Hq (longest_prefix_app _ _ _ _ F (lp_go _ _ _ _ Pn Ht))).
        rewrite !in_app_iff. simpl. split; intuition (subst; auto).
      * destruct (longest_prefix_exists P dec (dkeys d)) as [t Ht].
        rewrite (longest_prefix_unique _ _ _ _ Hp' (longest_prefix_cut _ _ _ _ F Ht)).
        rewrite (longest_prefix_unique _ _ _ _ Hq (longest_prefix_cut _ _ _ _ F Ht)). tauto.
    + rewrite <- app_assoc in Hp'. simpl in Hp'. rewrite (longest_prefix_unique _ _ _ _ Hp' Hq). tauto.
Qed.
Lemma zero_dict_keys names : forall (d : list (string * R)) x, In x (dkeys (fold_left (fun d n => dset d n 0%R) names d)) <-> In x (dkeys d) \/ In x names.
Proof.
  induction names as [|n names IH]; intros d x; simpl; [tauto|]. rewrite IH, dkeys_dset. destruct (dhas d n) eqn:E.
  - apply dhas_In in E. split; intuition (subst; auto).
  - rewrite in_app_iff. simpl. intuition.
Qed.
Lemma zero_dict_zero names : forall (d : list (string * R)), (forall n v, In (n, v) d -> v = 0%R) ->
  forall n v, In (n, v) (fold_left (fun d n => dset d n 0%R) names d) -> v = 0%R.
Proof.
  induction names as [|n0 names IH]; intros d H n v; simpl; [apply H|]. apply IH. clear IH v n.
  induction d as [|[k w] d IHd]; simpl; intros n v.
  - intros [Q|[]]. injection Q as _ <-. reflexivity.
  - destruct (String.eqb k n0); simpl; (intros [Q|Q]; [injection Q as <- <-|]).
    + reflexivity.
    + apply (H n v). right. exact Q.
    + apply (H k w). left. reflexivity.
    + apply (IHd (fun n v I => H n v (or_intror I)) n v Q).
Qed.
Lemma last_assigned_const name c l : forall b, last_assigned name b (map (fun n => (n, Some c)) l) = if existsb (String.eqb name) l then Some c else b.
Proof.
  induction l as [|n l IH]; intros b; simpl; [reflexivity|]. rewrite IH, String.eqb_sym. destruct (String.eqb name n); simpl; [|reflexivity].
  destruct (existsb _ l); reflexivity.
Qed.
Lemma longest_prefix_map {A B} (g : A -> B) (P : B -> Prop) l p : longest_prefix P (map g l) p ->
  exists q, p = map g q /\ longest_prefix (fun a => P (g a)) l q.
Proof.
  revert p. induction l as [|a l IH]; intros p H; inversion H; subst.
  - exists []. split; [reflexivity|constructor].
  - exists []. split; [reflexivity|constructor; assumption].
  - destruct (IH _ H4) as (q & -> & Hq). exists (a :: q). split; [reflexivity|constructor; assumption].
Qed.
Lemma allowed_dec m s r : allowed m s r \/ ~ allowed m s r.
Proof.
  unfold allowed. assert (D : s = RADIAL \/ s <> RADIAL) by (destruct s; [left|right]; congruence).
  destruct (in_dec string_dec (fst r) (dkeys (m_plines m))), (in_dec string_dec (fst r) (dkeys (m_ptriangles m)));
    destruct (snd r) as [[]|]; tauto.
Qed.

Lemma boundary_history m s o C (add : excitation -> list (string * R) -> excitation * result unit) inward names :
  (forall kw e e' r, same_electrodes m s e -> add e kw = (e', r) ->
    same_electrodes m s e' /\ (r = Ok tt <-> Forall (allowed m s) (map (fun nv => (fst nv, Some (C (snd nv)))) kw)) /\
    exists acc, longest_prefix (allowed m s) (map (fun nv => (fst nv, Some (C (snd nv)))) kw) acc /\
      forall name, dget (e_types e') name = last_assigned name (dget (e_types e) name) acc) ->
  forall e e' r, same_electrodes m s e -> add_boundary o add inward e names = (e', r) ->
    same_electrodes m s e' /\ (r = Ok tt <-> Forall (allowed m s) (map (fun n => (n, Some (C 0%R))) names)) /\
    exists acc, longest_prefix (allowed m s) (map (fun n => (n, Some (C 0%R))) names) acc /\
      forall name, dget (e_types e') name = last_assigned name (dget (e_types e) name) acc.
Proof.
  intros Hadd e e' r I H. unfold add_boundary in H.
  assert (exists e1, same_electrodes m s e1 /\ e_types e1 = e_types e /\ add e1 (zero_dict names) = (e', r)) as (e1 & I1 & T1 & H1).
  { destruct inward; [|exists e; auto]. destruct (inward_all o e names) as [e1 r1] eqn:E.
    destruct (inward_all_ok m s o names _ _ _ I E) as (I1 & -> & T). exists e1. auto. }
  clear H. rewrite <- T1. clear T1 I e. rename e1 into e. destruct (Hadd _ _ _ _ I1 H1) as (I2 & R & acc & La & K).
  assert (Z : map (fun nv => (fst nv, Some (C (snd nv)))) (zero_dict names) = map (fun n => (n, Some (C 0%R))) (dkeys (zero_dict names))).
  { unfold dkeys. rewrite map_map. apply map_ext_in. intros [n v] Hnv. cbn [fst snd].
    rewrite (zero_dict_zero names [] (fun n v (I : In (n, v) []) => match I with end) n v Hnv). reflexivity. }
  rewrite Z in *. split; [exact I2|]. split.
  - rewrite R, !Forall_forall. split; intros F x Hx; apply F; apply in_map_iff in Hx; destruct Hx as (n & <- & Hn); apply in_map_iff;
      exists n; (split; [reflexivity|]); unfold zero_dict in *; rewrite zero_dict_keys in *; simpl in *; tauto.
  - destruct (longest_prefix_exists (allowed m s) (allowed_dec m s) (map (fun n => (n, Some (C 0%R))) names)) as [q Hq].
    exists q. split; [exact Hq|]. intros name. rewrite K.
    destruct (longest_prefix_map _ _ _ _ La) as (a' & -> & La'). destruct (longest_prefix_map _ _ _ _ Hq) as (q' & -> & Hq').
    rewrite !last_assigned_const.
    assert (X : existsb (String.eqb name) a' = existsb (String.eqb name) q'); [|rewrite X; reflexivity].
    apply eq_true_iff_eq. rewrite !existsb_exists.
    pose proof (zero_dict_prefix _ (fun n => allowed_dec m s (n, Some (C 0%R))) names [] a' q' La' Hq') as M.
    split; intros (x & Hx & E); exists x; (split; [apply M; exact Hx|exact E]).
Qed.

Lemma call_history m s o e c e' r : same_electrodes m s e -> run_call o e c = (e', r) ->
  same_electrodes m s e' /\
  (r = Ok tt <-> Forall (allowed m s) (requests c) /\ (forall kw, c = AddCurrent kw -> s = RADIAL)) /\
  exists acc, longest_prefix (allowed m s) (requests c) acc /\
    forall name, dget (e_types e') name = last_assigned name (dget (e_types e) name) acc.
Proof.
  intros I H.
  assert (W : forall (A B C : Prop), A /\ (r = Ok tt <-> B) /\ C -> (forall kw, c <> AddCurrent kw) ->
                A /\ (r = Ok tt <-> B /\ (forall kw, c = AddCurrent kw -> s = RADIAL)) /\ C).
  { intros A B C (HA & HB & HC) Nc. split; [exact HA|]. split; [|exact HC]. rewrite HB. split; [|tauto].
    intros b. split; [exact b|]. intros kw ->. exfalso. apply (Nc kw). reflexivity. }
  assert (MagP : forall kw e e' r, same_electrodes m s e -> add_magnetizable e kw = (e', r) ->
    same_electrodes m s e' /\ (r = Ok tt <-> Forall (allowed m s) (map (fun nv => (fst nv, Some (MAGNETIZABLE (snd nv)))) kw)) /\
    exists acc, longest_prefix (allowed m s) (map (fun nv => (fst nv, Some (MAGNETIZABLE (snd nv)))) kw) acc /\
      forall name, dget (e_types e') name = last_assigned name (dget (e_types e) name) acc).
  { apply each_history. apply (add_if_electrode_step m s MAGNETIZABLE). intros v n. reflexivity. }
  assert (DieP : forall kw e e' r, same_electrodes m s e -> add_dielectric e kw = (e', r) ->
    same_electrodes m s e' /\ (r = Ok tt <-> Forall (allowed m s) (map (fun nv => (fst nv, Some (DIELECTRIC (snd nv)))) kw)) /\
    exists acc, longest_prefix (allowed m s) (map (fun nv => (fst nv, Some (DIELECTRIC (snd nv)))) kw) acc /\
      forall name, dget (e_types e') name = last_assigned name (dget (e_types e) name) acc).
  { apply each_history. apply (add_if_electrode_step m s DIELECTRIC). intros v n. reflexivity. }
  destruct c as [kw|kw|kw|kw|kw|b names|b names]; cbn [run_call requests] in *.
  - apply W; [|discriminate]. clear W; revert kw e e' r I H. apply (each_history m s (fun nv => (fst nv, match snd nv with
                                             | VNumber v => Some (VOLTAGE_FIXED v)
                                             | VFunction f => Some (VOLTAGE_FUN f)
                                             | VOther => None end))).
    intros e n a e' r I H. pose proof (se_el _ _ _ I n) as El. destruct (is_electrode e n) eqn:E.
    + assert (Q := proj1 El eq_refl). destruct a as [v|f|]; injection H as <- <-; cbn [fst snd].
      * left. split; [reflexivity|]. split; [exact Q|]. eauto.
      * left. split; [reflexivity|]. split; [exact Q|]. eauto.
      * right. split; [discriminate|]. split; [intros []|reflexivity].
    + injection H as <- <-. right. split; [discriminate|]. split; [|reflexivity]. cbn [fst snd]. unfold allowed. cbn [fst snd].
      destruct a; try (intros Q; apply El in Q; discriminate). intros [].
  - unfold add_current in H. rewrite (se_sym _ _ _ I) in H. destruct s eqn:Es.
    + assert (X : same_electrodes m RADIAL e' /\ (r = Ok tt <-> Forall (allowed m RADIAL) (map (fun nv => (fst nv, Some (CURRENT (snd nv)))) kw)) /\
        exists acc, longest_prefix (allowed m RADIAL) (map (fun nv => (fst nv, Some (CURRENT (snd nv)))) kw) acc /\
          forall name, dget (e_types e') name = last_assigned name (dget (e_types e) name) acc).
      { revert H. apply each_history; [|exact I]. clear. intros e n a e' r I H. cbn [fst snd].
        pose proof (dhas_In (m_ptriangles (e_mesh e)) n) as El. rewrite (se_pt _ _ _ I) in El.
        destruct (dhas (m_ptriangles (e_mesh e)) n); injection H as <- <-; [left|right].
        - split; [reflexivity|]. split; [split; [reflexivity|apply El; reflexivity]|]. eauto.
        - split; [discriminate|]. split; [|reflexivity]. intros [_ Q]. apply El in Q. discriminate. }
      destruct X as (X1 & X2 & X3). split; [exact X1|]. split; [|exact X3]. rewrite X2. tauto.
    + injection H as <- <-. split; [exact I|]. split.
      * split; [discriminate|]. intros [_ Q]. specialize (Q kw eq_refl). discriminate.
      * destruct kw as [|[n v] kw]; simpl; exists []; (split; [|reflexivity]); [constructor|].
        apply lp_stop. intros [Q _]. discriminate.
  - apply W; [|discriminate]. revert H. apply each_history; [|exact I].
    apply (add_if_electrode_step m s MAGNETOSTATIC_POT). intros v n. reflexivity.
  - apply W; [|discriminate]. exact (MagP _ _ _ _ I H).
  - apply W; [|discriminate]. exact (DieP _ _ _ _ I H).
  - apply W; [|discriminate]. exact (boundary_history m s o DIELECTRIC _ b names DieP _ _ _ I H).
  - apply W; [|discriminate]. exact (boundary_history m s o MAGNETIZABLE _ b names MagP _ _ _ I H).
Qed.

Lemma last_assigned_app name l1 l2 : forall b, last_assigned name b (l1 ++ l2) = last_assigned name (last_assigned name b l1) l2.
Proof. induction l1 as [|[n c] l1 IH]; intros b; simpl; [reflexivity|apply IH]. Qed.

Lemma calls_history m s o cs : forall e e' rs, same_electrodes m s e -> run_calls o e cs = (e', rs) ->
  Forall2 (fun c r => r = Ok tt <-> Forall (allowed m s) (requests c) /\ (forall kw, c = AddCurrent kw -> s = RADIAL)) cs rs /\
  exists accepted, Forall2 (fun c acc => longest_prefix (allowed m s) (requests c) acc) cs accepted /\
    forall name, dget (e_types e') name = last_assigned name (dget (e_types e) name) (concat accepted).
Proof.
  induction cs as [|c cs IH]; intros e e' rs I H; cbn [run_calls] in H.
  - injection H as <- <-. split; [constructor|]. exists []. split; [constructor|reflexivity].
  - destruct (run_call o e c) as [e1 r] eqn:E1. destruct (run_calls o e1 cs) as [e2 rs'] eqn:E2. injection H as <- <-.
    destruct (call_history m s o e c e1 r I E1) as (I1 & R & acc & La & K).
    destruct (IH _ _ _ I1 E2) as (F & accs & Fa & K'). split; [constructor; assumption|].
    exists (acc :: accs). split; [constructor; assumption|]. intros name. simpl. rewrite last_assigned_app, K'. f_equal. apply K.
Qed.
