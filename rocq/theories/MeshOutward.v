(** C11 for whole meshes: every connected piece of a group is oriented by the constructor. *)
From Coq Require Import Reals Permutation Relations Lra.
From Verif Require Import Base BaseFacts Float64 OrientModel MeshModel MeshSpec OrientFacts LabelFacts DedupFacts MeshFacts MeshCtor
  MeshOps MeshExtract MeshMisc OrientConsist Vec GeomModel OutwardSpec OutwardFacts.

Lemma orient_pieces_parts ens pieces : forall els els', NoDup (concat pieces) -> orient_pieces ens pieces els = Ok els' ->
  (forall p, In p pieces -> exists part part', np_take els p = Ok part /\ ens part = Ok part' /\ np_take els' p = Ok part') /\
  (forall k, ~ In k (concat pieces) -> nth_error els' k = nth_error els k).
Proof.
  induction pieces as [|p pieces IH]; intros els els' ND H; cbn [orient_pieces] in H.
  - injection H as <-. split; [intros p []|reflexivity].
  - apply bind_ok in H. destruct H as (part & Ht & H). apply bind_ok in H. destruct H as (part' & He & H).
    apply bind_ok in H. destruct H as (els1 & Hp & H). cbn [concat] in ND |- *.
    assert (NDp : NoDup p /\ NoDup (concat pieces) /\ forall x, In x p -> ~ In x (concat pieces)).
    { clear - ND. induction p as [|x p IHp]; simpl in *; [repeat split; auto; constructor|]. inversion ND; subst.
      destruct (IHp H2) as (A & B & C). repeat split; auto; [constructor; auto; intros Q; apply H1; apply in_or_app; auto|].
      intros y [->|Hy]; [intros Q; apply H1; apply in_or_app; auto|apply C; exact Hy]. }
    destruct NDp as (NDp & NDc & Dis). destruct (IH _ _ NDc H) as (K1 & K2). split.
    + intros q [<-|Hq].
      * exists part, part'. split; [exact Ht|]. split; [exact He|]. apply np_take_ok. apply Forall2_nth_error. split.
        -- apply np_put_length in Hp. destruct Hp as [_ Hp]. symmetry. exact Hp.
        -- intros k i a Hi Ha. rewrite K2 by (apply Dis; eapply nth_error_In; exact Hi).
           rewrite (np_put_NoDup _ _ _ _ _ _ Hp NDp Hi). exact Ha.
      * destruct (K1 q Hq) as (a & a' & A1 & A2 & A3). exists a, a'. split; [|split; assumption].
        apply np_take_ok. apply np_take_ok in A1.
        assert (Dq : forall x, In x q -> ~ In x p).
        { intros x Hx Hxp. apply (Dis x Hxp). apply in_concat. exists q. auto. }
        clear - A1 Dq Hp. induction A1 as [|i v q a Hi F IHF]; constructor.
        -- rewrite (np_put_other _ _ _ _ i Hp) in Hi; [exact Hi|]. apply Dq. left. reflexivity.
        -- apply IHF. intros x Hx. apply Dq. right. exact Hx.
    + intros k Hk. rewrite in_app_iff in Hk. rewrite K2 by tauto. apply (np_put_other _ _ _ _ k Hp). tauto.
Qed.

(** [els'] is the result of orienting the connected pieces of [els] one by one. *)
Definition oriented (sf : row -> row -> Prop) (ens : list row -> result (list row)) (els' : list row) (pieces : list (list nat)) : Prop :=
  exists els, Forall2 sf els els' /\ Permutation (concat pieces) (seq 0 (length els')) /\
    (forall p, In p pieces -> forall i j, In i p -> (In j p <-> connected els' i j)) /\
    (forall p, In p pieces -> exists part part', np_take els p = Ok part /\ ens part = Ok part' /\ np_take els' p = Ok part').

Lemma connected_sf (sf : row -> row -> Prop) (els els' : list row) :
  (forall r r', sf r r' -> forall v, In v r' <-> In v r) -> Forall2 sf els els' ->
  forall i j, connected els i j -> connected els' i j.
Proof.
  intros Hsf F i j H. unfold connected in *. induction H as [i j (a & b & v & A & B & Va & Vb)| |]; [|apply rt_refl|eapply rt_trans; eauto].
  apply rt_step. destruct (Forall2_nth_l _ _ _ _ _ F A) as (a' & A' & Sa). destruct (Forall2_nth_l _ _ _ _ _ F B) as (b' & B' & Sb).
  exists a', b', v. repeat split; auto; [apply (Hsf a)|apply (Hsf b)]; assumption.
Qed.
Lemma Forall2_swap {A} (S : A -> A -> Prop) l m : (forall a b, S a b -> S b a) -> Forall2 S l m -> Forall2 S m l.
Proof. intros H F. induction F; constructor; auto. Qed.

Lemma ensure_group_oriented (sf : row -> row -> Prop) ens idx all all' :
  (forall r, sf r r) -> (forall a b c, sf a b -> sf b c -> sf a c) -> (forall r r', sf r r' -> sf r' r) ->
  (forall r r', sf r r' -> forall v, In v r' <-> In v r) ->
  (forall l l', ens l = Ok l' -> Forall2 sf l l') -> NoDup idx ->
  ensure_group ens idx all = Ok all' ->
  exists els' pieces, np_take all' idx = Ok els' /\ oriented sf ens els' pieces.
Proof.
  intros Rf Tr Sy Hv He ND H. unfold ensure_group in H. apply bind_ok in H. destruct H as (els & Ht & H).
  destruct els as [|e0 els0] eqn:Ee.
  - injection H as <-. exists [], []. split; [exact Ht|]. exists []. repeat split; try constructor; intros; try contradiction.
  - rewrite <- Ee in *. clear Ee e0 els0. apply bind_ok in H. destruct H as (pieces & Hp & H). apply bind_ok in H. destruct H as (els' & Ho & H).
    destruct (connected_elements_partition els) as (pieces' & Hp' & Pm & _ & Cn). rewrite Hp in Hp'. injection Hp' as <-.
    pose proof (orient_pieces_rel sf Rf Tr ens He pieces els els' Ho) as F.
    assert (NDc : NoDup (concat pieces)) by (eapply Permutation_NoDup; [apply Permutation_sym; exact Pm|apply seq_NoDup]).
    destruct (orient_pieces_parts ens pieces els els' NDc Ho) as (K1 & _).
    exists els', pieces. split.
    + apply np_take_ok. apply Forall2_nth_error. pose proof (np_take_length _ _ _ Ht) as L. split.
      * rewrite <- (Forall2_length _ _ _ F). auto.
      * intros k i a Hi Ha. rewrite (np_put_NoDup _ _ _ _ _ _ H ND Hi). exact Ha.
    + exists els. split; [exact F|]. split; [rewrite <- (Forall2_length _ _ _ F); exact Pm|]. split; [|exact K1].
      intros p Hin i j Hi. rewrite (Cn p Hin i j Hi). split.
      * apply (connected_sf sf); assumption.
      * apply (connected_sf sf); [assumption|]. apply Forall2_swap; assumption.
Qed.

Lemma line_sf_sym r r' : line_sf r r' -> line_sf r' r.
Proof. intros [->| ->]; [left; reflexivity|right]. symmetry. apply reversed_line_inv. Qed.
Lemma tri_sf_sym r r' : tri_sf r r' -> tri_sf r' r.
Proof. intros [->| ->]; [left; reflexivity|right]. symmetry. apply reversed_triangle_inv. Qed.

(** One call of ensure_outward_normals / ensure_inward_normals. *)
Lemma ensure_normals_lines o b m el m' idx : ensure_normals o b m el = Ok m' -> dget (m_plines m) el = Some idx -> NoDup idx ->
  exists els' pieces, np_take (arows (m_lines m')) idx = Ok els' /\
    oriented line_sf (ensure_line_orientation o (m_points m) b) els' pieces.
Proof.
  intros H Hg ND. unfold ensure_normals in H. apply bind_ok in H. destruct H as (m1 & H1 & H2).
  assert (E : m_points m1 = m_points m /\ m_plines m1 = m_plines m).
  { destruct (dget (m_ptriangles m) el); [|injection H1 as <-; auto]. apply bind_ok in H1. destruct H1 as (t & _ & H1). injection H1 as <-. auto. }
  destruct E as [E1 E2]. rewrite E2, Hg, E1 in H2. apply bind_ok in H2. destruct H2 as (t & Ht & H2). injection H2 as <-. cbn [m_lines arows].
  eapply (ensure_group_oriented line_sf); [apply line_sf_refl|apply line_sf_trans|apply line_sf_sym| | |exact ND|exact Ht].
  - intros r r' S v. apply line_sf_In. exact S.
  - intros l l'. apply ensure_line_orientation_sf.
Qed.
Lemma ensure_normals_triangles o b m el m' idx : ensure_normals o b m el = Ok m' -> dget (m_ptriangles m) el = Some idx -> NoDup idx ->
  exists els' pieces, np_take (arows (m_triangles m')) idx = Ok els' /\
    oriented tri_sf (ensure_triangle_orientation o (m_points m) b) els' pieces.
Proof.
  intros H Hg ND. unfold ensure_normals in H. apply bind_ok in H. destruct H as (m1 & H1 & H2).
  rewrite Hg in H1. apply bind_ok in H1. destruct H1 as (t & Ht & H1). injection H1 as <-.
  assert (E : arows (m_triangles m') = t).
  { cbn [m_plines m_points m_lines] in H2. destruct (dget (m_plines m) el); [|injection H2 as <-; reflexivity].
    apply bind_ok in H2. destruct H2 as (t' & _ & H2). injection H2 as <-. reflexivity. }
  rewrite E. eapply (ensure_group_oriented tri_sf); [apply tri_sf_refl|apply tri_sf_trans|apply tri_sf_sym| | |exact ND|exact Ht].
  - intros r r' S v. apply tri_sf_In. exact S.
  - intros l l'. apply ensure_triangle_orientation_sf.
Qed.

Definition apart (d : dict) (name : string) (idx : list nat) : Prop :=
  forall other v, other <> name -> dget d other = Some v -> forall k, In k idx -> ~ In k v.

(** ensure_outward_normals (or inward, [b] = false) for a list of names. *)
Fixpoint ensure_seq (o : oracles) (b : bool) (m : mesh) (els : list string) : result mesh :=
  match els with
  | [] => Ok m
  | el :: t => m' <- ensure_normals o b m el ;; ensure_seq o b m' t
  end.
Lemma ensure_all_seq o els : forall m, ensure_all o m els = ensure_seq o true m els.
Proof. induction els as [|el els IH]; intros m; simpl; [reflexivity|]. destruct (ensure_normals o true m el); simpl; [apply IH|reflexivity]. Qed.

(** Later groups leave the elements of a group alone when they do not overlap with it. *)
Lemma ensure_seq_apart o b els : forall m m' name, ensure_seq o b m els = Ok m' -> ~ In name els ->
  (forall idx, apart (m_plines m) name idx -> forall k, In k idx -> nth_error (arows (m_lines m')) k = nth_error (arows (m_lines m)) k) /\
  (forall idx, apart (m_ptriangles m) name idx -> forall k, In k idx -> nth_error (arows (m_triangles m')) k = nth_error (arows (m_triangles m)) k).
Proof.
  induction els as [|el els IH]; intros m m' name H Hn; cbn [ensure_seq] in H.
  - injection H as <-. auto.
  - apply bind_ok in H. destruct H as (m1 & H1 & H). destruct (ensure_normals_flips _ _ _ _ _ H1) as (_ & _ & _ & _ & _ & F6 & F7).
    destruct (ensure_normals_other _ _ _ _ _ H1) as [A B]. destruct (IH _ _ name H) as [C D]; [simpl in Hn; tauto|].
    rewrite F6 in C. rewrite F7 in D.
    assert (N : el <> name) by (intros ->; apply Hn; left; reflexivity).
    split; intros idx Ha k Hk.
    + rewrite (C idx Ha k Hk). apply A. intros v Hv. apply (Ha el v N Hv k Hk).
    + rewrite (D idx Ha k Hk). apply B. intros v Hv. apply (Ha el v N Hv k Hk).
Qed.
Lemma last_occurrence (n : string) l : In n l -> exists l1 l2, l = l1 ++ n :: l2 /\ ~ In n l2.
Proof.
  induction l as [|a l IH]; intros H; [destruct H|]. destruct (in_dec string_dec n l) as [Q|Q].
  - destruct (IH Q) as (l1 & l2 & -> & N). exists (a :: l1), l2. auto.
  - destruct H as [->|H]; [|contradiction]. exists [], l. auto.
Qed.
Lemma ensure_seq_app o b l1 : forall m l2 m', ensure_seq o b m (l1 ++ l2) = Ok m' -> exists m1, ensure_seq o b m l1 = Ok m1 /\ ensure_seq o b m1 l2 = Ok m'.
Proof.
  induction l1 as [|a l1 IH]; intros m l2 m' H; simpl in *; [eauto|]. apply bind_ok in H. destruct H as (m1 & H1 & H).
  destruct (IH _ _ _ H) as (m2 & A & B). exists m2. rewrite H1. auto.
Qed.
Lemma ensure_seq_flips o b els : forall m m', ensure_seq o b m els = Ok m' -> upto_flips m m'.
Proof.
  induction els as [|el els IH]; intros m m' H; cbn [ensure_seq] in H; [injection H as <-; apply upto_flips_refl|].
  apply bind_ok in H. destruct H as (m1 & H1 & H). eapply upto_flips_trans; [eapply ensure_normals_flips; eauto|eauto].
Qed.
Lemma take_same {A} (l l' : list A) idx r : (forall k, In k idx -> nth_error l' k = nth_error l k) -> np_take l idx = Ok r -> np_take l' idx = Ok r.
Proof.
  intros H Ht. apply np_take_ok in Ht. apply np_take_ok. clear - H Ht. induction Ht; constructor.
  - rewrite H by (left; reflexivity). assumption.
  - apply IHHt. intros k Hk. apply H. right. exact Hk.
Qed.

Lemma ensure_seq_lines o b els m m' name idx : ensure_seq o b m els = Ok m' -> In name els ->
  dget (m_plines m) name = Some idx -> NoDup idx -> apart (m_plines m) name idx ->
  exists els' pieces, np_take (arows (m_lines m')) idx = Ok els' /\
    oriented line_sf (ensure_line_orientation o (m_points m) b) els' pieces.
Proof.
  intros H Hin Hg ND Ha. destruct (last_occurrence _ _ Hin) as (l1 & l2 & -> & Hn).
  destruct (ensure_seq_app _ _ _ _ _ _ H) as (m1 & H1 & H2). cbn [ensure_seq] in H2. apply bind_ok in H2. destruct H2 as (m2 & H2 & H3).
  destruct (ensure_seq_flips _ _ _ _ _ H1) as (F1 & _ & _ & _ & _ & F6 & _).
  destruct (ensure_normals_flips _ _ _ _ _ H2) as (_ & _ & _ & _ & _ & G6 & _).
  rewrite <- F6 in Hg, Ha. destruct (ensure_normals_lines _ _ _ _ _ _ H2 Hg ND) as (els' & pieces & Ht & Ho).
  exists els', pieces. rewrite F1 in Ho. split; [|exact Ho]. rewrite <- G6 in Ha.
  eapply take_same; [|exact Ht]. apply (proj1 (ensure_seq_apart _ _ _ _ _ name H3 Hn) idx Ha).
Qed.
Lemma ensure_seq_triangles o b els m m' name idx : ensure_seq o b m els = Ok m' -> In name els ->
  dget (m_ptriangles m) name = Some idx -> NoDup idx -> apart (m_ptriangles m) name idx ->
  exists els' pieces, np_take (arows (m_triangles m')) idx = Ok els' /\
    oriented tri_sf (ensure_triangle_orientation o (m_points m) b) els' pieces.
Proof.
  intros H Hin Hg ND Ha. destruct (last_occurrence _ _ Hin) as (l1 & l2 & -> & Hn).
  destruct (ensure_seq_app _ _ _ _ _ _ H) as (m1 & H1 & H2). cbn [ensure_seq] in H2. apply bind_ok in H2. destruct H2 as (m2 & H2 & H3).
  destruct (ensure_seq_flips _ _ _ _ _ H1) as (F1 & _ & _ & _ & _ & _ & F7).
  destruct (ensure_normals_flips _ _ _ _ _ H2) as (_ & _ & _ & _ & _ & _ & G7).
  rewrite <- F7 in Hg, Ha. destruct (ensure_normals_triangles _ _ _ _ _ _ H2 Hg ND) as (els' & pieces & Ht & Ho).
  exists els', pieces. rewrite F1 in Ho. split; [|exact Ho]. rewrite <- G7 in Ha.
  eapply take_same; [|exact Ht]. apply (proj2 (ensure_seq_apart _ _ _ _ _ name H3 Hn) idx Ha).
Qed.

(** ** Conditions on a piece do not depend on directions *)
Section LineConditions.
  Variables (part part' : list row).
  Hypothesis W : Forall (fun r : row => length r = 2 \/ length r = 4) part.
  Hypothesis F : Forall2 line_sf part part'.
  Lemma inner_points_free_sf : inner_points_free part -> inner_points_free part'.
  Proof.
    intros H i j r s v Hi Hj Hr Hs. destruct (Forall2_nth_r _ _ _ _ _ F Hi) as (r0 & Hi0 & S1).
    destruct (Forall2_nth_r _ _ _ _ _ F Hj) as (s0 & Hj0 & S2). rewrite Forall_forall in W.
    apply (H i j r0 s0 v Hi0 Hj0).
    - apply (line_sf_skipn r0 r); auto. apply W. eapply nth_error_In; exact Hi0.
    - apply (line_sf_firstn s0 s); auto. apply W. eapply nth_error_In; exact Hj0.
  Qed.
  Lemma ends_connected_sf : ends_connected part -> ends_connected part'.
  Proof.
    intros H i Hi. rewrite <- (Forall2_length _ _ _ F) in Hi. specialize (H i Hi). revert H.
    apply (connected_sf (fun r r' => forall v, In v r' <-> In v r)); [auto|].
    clear - F W. induction F; constructor; inversion W; subst; auto. apply line_sf_firstn; assumption.
  Qed.
End LineConditions.

Lemma edge_connected_sf (els els' : list row) : Forall (fun r : row => length r = 3) els -> Forall2 tri_sf els els' ->
  forall i j, edge_connected els i j -> edge_connected els' i j.
Proof.
  intros W F i j H. unfold edge_connected in *. induction H as [i j (r & s & a & b & A & B & D1 & D2)| |]; [|apply rt_refl|eapply rt_trans; eauto].
  apply rt_step. destruct (Forall2_nth_l _ _ _ _ _ F A) as (r' & A' & Sr). destruct (Forall2_nth_l _ _ _ _ _ F B) as (s' & B' & Ss).
  assert (S : forall x y a b, tri_sf x y -> directed_edge x a b -> directed_edge y a b \/ directed_edge y b a).
  { intros x y p q [->| ->] Q; [left; exact Q|right]. apply directed_reversed'. exact Q. }
  destruct (S r r' a b Sr D1) as [Q|Q].
  - exists r', s', a, b. repeat split; auto. destruct D2 as [D2|D2]; apply (S s s') in D2; auto; tauto.
  - exists r', s', b, a. repeat split; auto. destruct D2 as [D2|D2]; apply (S s s') in D2; auto; tauto.
Qed.
Lemma comparison_sf o pts (els els' : list row) : Forall2 tri_sf els els' -> comparison_ok o pts els -> comparison_ok o pts els'.
Proof.
  intros F H r s r' s' Hr Hs Sr Ss.
  destruct (In_nth_error _ _ Hr) as [i Hi]. destruct (In_nth_error _ _ Hs) as [j Hj].
  destruct (Forall2_nth_r _ _ _ _ _ F Hi) as (r0 & Hr0 & R0). destruct (Forall2_nth_r _ _ _ _ _ F Hj) as (s0 & Hs0 & S0).
  assert (T : forall a b c, tri_sf a b -> (c = b \/ c = reversed_triangle b) -> c = a \/ c = reversed_triangle a).
  { intros a b c Hab Hbc. apply (tri_sf_trans a b c Hab). exact Hbc. }
  apply (H r0 s0); [eapply nth_error_In; exact Hr0|eapply nth_error_In; exact Hs0|apply (T r0 r); assumption|apply (T s0 s); assumption].
Qed.
